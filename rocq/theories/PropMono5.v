(** C76: a whole run of CPD::als never increases the objective, over the reals *)
From Coq Require Import List ZArith QArith Qround Reals Lra Lia Bool Arith.
From Verif Require Import Base Num NumR Tensor Spec Spec3 Spec4 Spec5 Spec6 Spec7 Spec8 Spec10 Spec11 Spec18 Spec19 Spec21 MCommon MCP MOpt MOptLR MCPD PBase PTensor PSum PMttkrp PMat PMatAlg PResid PGrad
  PNormalize PRank PRank2 POptStep POptLR PALS PMono PMono2 PCPD PCPD2 PDrivers2 PTuckMono PropCPD PropTucker3 PConv PConv2 PConv3 PConv4 PConv5 PropConv.
From Verif Require Import PropConv3.
From Verif Require PropMono2.
Import ListNotations.
Local Close Scope Q_scope.
Local Open Scope R_scope.
Local Notation RL := Rnum_ring.
Local Notation OL := Rnum_ord.

Lemma simple_iter {N : num} (solve : tensor N -> tensor N -> tensor N) lambda V rk l k st :
  Nat.iter k (ls_modes solve lambda V rk l) st = ls_modes solve lambda V rk (concat (repeat l k)) st.
Proof.
  induction k as [|k IH]; [reflexivity|]. change (Nat.iter (S k) ?f st) with (f (Nat.iter k f st)). rewrite IH.
  replace (repeat l (S k)) with (repeat l k ++ [l])%list by (symmetry; apply (repeat_cons k l)). rewrite concat_app. cbn [concat]. rewrite app_nil_r. unfold ls_modes. rewrite fold_left_app. reflexivity.
Qed.
Lemma schedule_S m o k : exact_method m -> exact_schedule m o (S k) = (exact_schedule m o k ++ method_modes m o k)%list.
Proof.
  intros Hm. destruct m; cbn [exact_method] in Hm; try tauto; cbn [exact_schedule method_modes].
  - unfold dt_schedule. rewrite seq_S, flat_map_app. cbn [flat_map plus]. rewrite app_nil_r. reflexivity.
  - unfold ms_schedule. rewrite seq_S, flat_map_app. cbn [flat_map plus]. rewrite app_nil_r. reflexivity.
  - replace (repeat (seq 0 o) (S k)) with (repeat (seq 0 o) k ++ [seq 0 o])%list by (symmetry; apply (repeat_cons k (seq 0 o))). rewrite concat_app. cbn [concat]. rewrite app_nil_r. reflexivity.
Qed.
Lemma state_schedule (LA : lapack Rnum) m lambda V rk W G k : exact_method m ->
  method_state m LA lambda V rk W G k = ls_modes (chol_solve (cholesky LA) (solve_tri LA)) lambda V rk (exact_schedule m (order V) k) (W, G).
Proof. intros Hm. destruct m; cbn [exact_method] in Hm; try tauto; try reflexivity. apply simple_iter. Qed.
Lemma schedule_prefix m o k K : exact_method m -> (k <= K)%nat -> exists b, exact_schedule m o K = (exact_schedule m o k ++ b)%list.
Proof.
  intros Hm H. induction H as [|K H (b & E)]; [exists []; rewrite app_nil_r; reflexivity|]. exists (b ++ method_modes m o K)%list.
  rewrite schedule_S, E, app_assoc by exact Hm. reflexivity.
Qed.
Section M.
Context (LA : lapack Rnum) (V : tensor Rnum) (size rk : nat) (W G : list (tensor Rnum)) (lambda : R) (m : cpd_method).
Hypothesis Hlow : low_shaped (svd LA) (qr_q LA) (rnd LA).
Hypothesis Hm : method_ok m (order V) size rk.
Hypothesis Hc : lens V = repeat size (order V).
Hypothesis HW : factors_ok V W rk.
Let st k := method_state m LA (lambda : Rnum) V rk W G k.
Let solve := chol_solve (cholesky LA) (solve_tri LA).
Lemma two : (2 <= order V)%nat.
Proof. clear - Hm. destruct m; cbn [method_ok] in Hm; lia. Qed.
Lemma sched_in k n : exact_method m -> In n (exact_schedule m (order V) k) -> (n < order V)%nat.
Proof.
  intros Hx. induction k as [|k IH]; intros Hn; [destruct m; destruct Hn|]. rewrite schedule_S in Hn by exact Hx. apply in_app_or in Hn.
  destruct Hn as [Hn|Hn]; [auto|]. eapply modes_in; eauto. apply two.
Qed.
Lemma exact_step K k : exact_method m -> exact_along (cholesky LA) (solve_tri LA) (lambda : Rnum) V rk (exact_schedule m (order V) K) (W, G) -> (k <= K)%nat ->
  factors_ok V (fst (st k)) rk /\ ((k < K)%nat -> objective (lambda : Rnum) V (fst (st (S k))) rk <= objective (lambda : Rnum) V (fst (st k)) rk).
Proof.
  intros Hx He Hk. destruct (schedule_prefix m (order V) k K Hx Hk) as (b & E).
  assert (He1 := He). rewrite E in He1. apply PropMono2.along_app in He1. destruct He1 as [He1 _].
  destruct (modes_mono RL OL (cholesky LA) (solve_tri LA) (lambda : Rnum) V rk (exact_schedule m (order V) k) W G HW (fun n => sched_in k n Hx) He1) as [F1 _]. cbv zeta in F1.
  unfold st. rewrite !state_schedule by exact Hx. split; [exact F1|]. intros HkK.
  destruct (schedule_prefix m (order V) (S k) K Hx HkK) as (b' & E'). rewrite E', schedule_S in He by exact Hx.
  apply PropMono2.along_app in He. destruct He as [He _]. apply PropMono2.along_app in He. destruct He as [_ He].
  rewrite schedule_S, ls_modes_app by exact Hx.
  destruct (ls_modes (chol_solve (cholesky LA) (solve_tri LA)) (lambda : Rnum) V rk (exact_schedule m (order V) k) (W, G)) as [W1 G1]. cbn [fst] in *.
  destruct (modes_mono RL OL (cholesky LA) (solve_tri LA) (lambda : Rnum) V rk (method_modes m (order V) k) W1 G1 F1) as [_ H]; [|exact He|apply Rnle in H; exact H].
  intros n. apply modes_in; [apply two|exact Hx].
Qed.
End M.
Lemma low_step (LA : lapack Rnum) (V : tensor Rnum) (size rk : nat) (W G : list (tensor Rnum)) (lambda : R) r rs K k :
  low_shaped (svd LA) (qr_q LA) (rnd LA) -> (3 <= order V)%nat -> (r <= rk)%nat -> (r <= size)%nat -> lens V = repeat size (order V) -> factors_ok V W rk ->
  acts_exact (cholesky LA) (solve_tri LA) (trunc_of (svd LA) (qr_q LA) (rnd LA) rs) r (lambda : Rnum) V rk (dl_schedule (order V) K) (mkLR W G (repeat tnil (order V)) 0) ->
  let st k := method_state (TwoSubtreeLR r rs) LA (lambda : Rnum) V rk W G k in
  (k <= K)%nat -> factors_ok V (fst (st k)) rk /\ ((k < K)%nat -> objective (lambda : Rnum) V (fst (st (S k))) rk <= objective (lambda : Rnum) V (fst (st k)) rk).
Proof.
  intros Hlow Ho HkR Hks Hc HW He st Hk.
  set (trunc := trunc_of (svd LA) (qr_q LA) (rnd LA) rs) in *.
  assert (Ht : forall c X r0, is_mat X r0 rk -> (r <= r0)%nat -> let '(U, s, VT) := trunc c X r in is_mat U r0 r /\ is_mat VT r rk).
  { intros c X r0 HX Hr. unfold trunc, trunc_of. destruct rs.
    - destruct (randomized_svd_ok RL LA Hlow X c r r0 rk HX Hr HkR) as [_ H]. destruct (rsvd (svd LA) (qr_q LA) (rnd LA) c X r) as [[U s1] VT]. tauto.
    - destruct Hlow as (H & _). specialize (H X r0 rk r HX Hr HkR). destruct (svd LA X r) as [[U s1] VT]. tauto. }
  assert (HkV : forall n, (n < order V)%nat -> (r <= nth n (lens V) 0)%nat) by (intros n Hn; rewrite Hc, (nth_indep _ 0%nat size) by (rewrite repeat_length; exact Hn); rewrite nth_repeat; exact Hks).
  assert (PS : forall a b, (a <= b)%nat -> exists l, dl_schedule (order V) b = (dl_schedule (order V) a ++ l)%list).
  { intros a b H. induction H as [|b H (l & E)]; [exists []; rewrite app_nil_r; reflexivity|]. exists (l ++ dl_half (order V) b)%list. unfold dl_schedule in *.
    rewrite seq_S, flat_map_app, E, <- app_assoc. cbn [flat_map plus]. rewrite app_nil_r. reflexivity. }
  assert (SS : dl_schedule (order V) (S k) = (dl_schedule (order V) k ++ dl_half (order V) k)%list) by (unfold dl_schedule; rewrite seq_S, flat_map_app; cbn [flat_map plus]; rewrite app_nil_r; reflexivity).
  assert (F1 : let st' := lr_acts (chol_solve (cholesky LA) (solve_tri LA)) (lr_inc trunc (cholesky LA) (solve_tri LA) r) (lambda : Rnum) V rk (dl_schedule (order V) k) (mkLR W G (repeat tnil (order V)) 0) in
     factors_ok V (rW st') rk /\ length (rRef st') = order V).
  { destruct (PS k K Hk) as (l & E). rewrite E in He. apply PropMono2.acts_app in He. destruct He as [He _].
    destruct (acts_mono RL OL (cholesky LA) (solve_tri LA) trunc r (lambda : Rnum) V rk (dl_schedule (order V) k) (mkLR W G (repeat tnil (order V)) 0) Ht HkV) as (H3 & H4 & _); auto.
    - unfold dl_schedule. induction (seq 0 k); cbn; [constructor|apply fresh_app; auto; apply PropMono2.dl_fresh].
    - apply repeat_length.
    - intros a Ha. unfold dl_schedule in Ha. apply in_flat_map in Ha. destruct Ha as (j & _ & Ha). eapply PropMono2.dl_in; eauto. }
  cbv zeta in F1. unfold st. cbn [method_state]. cbv zeta. fold trunc. cbn [fst]. split; [apply F1|]. intros HkK.
  destruct (PS (S k) K HkK) as (l & E). rewrite E, SS in He. apply PropMono2.acts_app in He. destruct He as [He _]. apply PropMono2.acts_app in He. destruct He as [_ He].
  rewrite SS. unfold lr_acts at 1. rewrite fold_left_app. fold (lr_acts (chol_solve (cholesky LA) (solve_tri LA)) (lr_inc trunc (cholesky LA) (solve_tri LA) r) (lambda : Rnum) V rk (dl_schedule (order V) k) (mkLR W G (repeat tnil (order V)) 0)).
  destruct F1 as [F1 F2].
  destruct (acts_mono RL OL (cholesky LA) (solve_tri LA) trunc r (lambda : Rnum) V rk (dl_half (order V) k) _ Ht HkV (PropMono2.dl_fresh _ _) F1 F2) as (_ & _ & H5); auto; [|apply Rnle in H5; exact H5].
  intros a Ha. eapply PropMono2.dl_in; eauto.
Qed.
Lemma steps_mono (LA : lapack Rnum) (V : tensor Rnum) (size rk : nat) (W G : list (tensor Rnum)) (lambda : R) m K :
  low_shaped (svd LA) (qr_q LA) (rnd LA) -> method_ok m (order V) size rk -> lens V = repeat size (order V) -> factors_ok V W rk ->
  systems_exact m LA (lambda : Rnum) V rk W G K ->
  let f k := objective (lambda : Rnum) V (fst (method_state m LA (lambda : Rnum) V rk W G k)) rk in
  (forall k, (k <= K)%nat -> factors_ok V (fst (method_state m LA (lambda : Rnum) V rk W G k)) rk) /\
  forall i j, (i <= j <= K)%nat -> f j <= f i.
Proof.
  intros Hlow Hm Hc HW He f.
  assert (S1 : forall k, (k <= K)%nat -> factors_ok V (fst (method_state m LA (lambda : Rnum) V rk W G k)) rk /\ ((k < K)%nat -> f (S k) <= f k)).
  { intros k Hk. destruct m as [| |rr rs|rr rs|]; cbn [systems_exact] in He; try tauto.
    - apply (exact_step LA V size rk W G lambda TwoSubtree Hm HW K k I He Hk).
    - apply (exact_step LA V size rk W G lambda MultiSweep Hm HW K k I He Hk).
    - cbn [method_ok] in Hm. apply (low_step LA V size rk W G lambda rr rs K k Hlow ltac:(lia) ltac:(lia) ltac:(lia) Hc HW He Hk).
    - apply (exact_step LA V size rk W G lambda Simple Hm HW K k I He Hk). }
  split; [intros k Hk; apply S1; exact Hk|]. intros i j [Hij Hj]. induction Hij as [|j Hij IH]; [apply Rle_refl|].
  eapply Rle_trans; [apply S1; lia|apply IH; lia].
Qed.

(** ** C76.  A run of CPD::als: the factors it returns have an objective no larger than that of the factors it was given; without
    regularisation the residuals of the rows it appends to the log never increase, and none is above that of the given factors *)
Lemma log_nonincreasing (clock : nat -> R) (t0 : nat) (V : tensor Rnum) (rk : nat) (tol : R) q (Wf Gf : nat -> list (tensor Rnum)) ms rp n K :
  (forall k, (k <= K)%nat -> factors_ok V (Wf k) rk) -> (forall i j, (i <= j <= K)%nat -> residual2 V (Wf j) rk <= residual2 V (Wf i) rk) -> (n <= S K)%nat ->
  exists es, map crow_residual (als_rows (N:=Rnum) clock t0 V rk (tol : Rnum) q false Wf Gf (checks q ms rp n)) = map Some es /\
    nonincreasing (resid_norm V (Wf 0%nat) rk :: es).
Proof.
  intros HF HM Hn. set (cs := checks q ms rp n).
  exists (map (fun j => resid_norm V (Wf (nth j cs 0%nat)) rk) (seq 0 (length cs))). split; [unfold als_rows; rewrite !map_map; reflexivity|].
  assert (Hcs : forall a, (a < length cs)%nat -> (nth a cs 0 <= K)%nat).
  { intros a Ha. assert (Hin := nth_In cs 0%nat Ha). unfold cs, checks in Hin. apply filter_In in Hin. destruct Hin as [Hin _]. apply in_seq in Hin. fold (checks q ms rp n) in Hin. fold cs in Hin. lia. }
  assert (LE : forall i j, (i <= j <= K)%nat -> resid_norm V (Wf j) rk <= resid_norm V (Wf i) rk).
  { intros i j Hij. rewrite !(resid_norm_sqrt V) by (apply HF; lia). apply sqrt_le_1_alt. apply HM. exact Hij. }
  intros a b [Hab Hb]. cbn [length] in Hb. rewrite map_length, seq_length in Hb.
  assert (NE : forall c, (c < length cs)%nat -> nth c (map (fun j => resid_norm V (Wf (nth j cs 0%nat)) rk) (seq 0 (length cs))) 0 = resid_norm V (Wf (nth c cs 0%nat)) rk).
  { intros c Hc. rewrite nth_map_lt with (d:=0%nat) by (rewrite seq_length; lia). rewrite seq_nth by lia. reflexivity. }
  destruct a as [|a], b as [|b]; cbn [nth]; try lia; [apply Rle_refl| |].
  - rewrite NE by lia. apply LE. split; [lia|]. apply Hcs. lia.
  - rewrite !NE by lia. apply LE. split; [|apply Hcs; lia]. unfold cs, checks. apply (checked_sorted (checked_at q ms rp)). split; [lia|]. unfold cs, checks in Hb. unfold checked_below. lia.
Qed.
Theorem C76_als :
  forall (LA : lapack Rnum) (clock : nat -> R) (rank0 bench : bool) (V : tensor Rnum) (size rk : nat) (W G : list (tensor Rnum)) (lambda : R) (m : cpd_method)
    (wf : nat) (tol limit : R) (maxsweep resprint : Z) (x : io (N:=Rnum)),
  tri_shaped (cholesky LA) (solve_tri LA) -> low_shaped (svd LA) (qr_q LA) (rnd LA) ->
  method_ok m (order V) size rk -> lens V = repeat size (order V) -> factors_ok V W rk -> mats_ok V G rk ->
  (0 <= maxsweep)%Z -> resprint <> 0%Z -> (2 * (Z.to_nat maxsweep + 1) <= wf)%nat ->
  systems_exact m LA (lambda : Rnum) V rk W G (2 * (Z.to_nat maxsweep + 1)) ->
  exists ret W' G' gn rows,
    cpd_run LA clock rank0 m wf (order V) size rk V W G (lambda : Rnum) (tol : Rnum) (limit : Rnum) maxsweep resprint bench x = Ok (ret, (W', G'), gn, rows) /\
    factors_ok V W' rk /\
    objective (lambda : Rnum) V W' rk <= objective (lambda : Rnum) V W rk /\
    (lambda = 0 -> bench = false -> exists es, map crow_residual rows = map Some es /\ nonincreasing (resid_norm V W rk :: es)).
Proof.
  intros LA clock rank0 bench V size rk W G lambda m wf tol limit ms rp x Hsh Hlow Hm Hc HW HG Hms Hrp Hwf He.
  destruct (C24_als_run Rnum RL LA clock rank0 V size rk W G (lambda : Rnum) m wf (tol : Rnum) (limit : Rnum) ms rp bench x Hsh Hlow Hm Hc HW HG Hms Hrp Hwf) as (k & stopped & gn & rows & E & Hk & _ & _ & ER).
  destruct (steps_mono LA V size rk W G lambda m _ Hlow Hm Hc HW He) as [HF HM]. cbv zeta in HM.
  assert (S0 : method_state m LA (lambda : Rnum) V rk W G 0 = (W, G)) by (destruct m; reflexivity).
  destruct (method_state m LA (lambda : Rnum) V rk W G k) as [W' G'] eqn:Es.
  exists (negb (Qeq_bool (sweeps_after (method_part m (order V)) k) (inject_Z (ms + 1)))), W', G', gn, rows. split; [exact E|].
  split; [specialize (HF k Hk); rewrite Es in HF; exact HF|]. split.
  - specialize (HM 0%nat k ltac:(lia)). rewrite Es, S0 in HM. exact HM.
  - intros -> ->. destruct rank0; [|exists []; split; [rewrite ER; reflexivity|intros a b Hab; cbn in Hab; replace a with 0%nat by lia; replace b with 0%nat by lia; apply Rle_refl]].
    rewrite ER. replace (resid_norm V W rk) with (resid_norm V (fst (method_state m LA (0 : Rnum) V rk W G 0)) rk) by (rewrite S0; reflexivity).
    apply (log_nonincreasing clock (ck x) V rk tol (method_part m (order V)) (fun k => fst (method_state m LA (0 : Rnum) V rk W G k)) (fun k => snd (method_state m LA (0 : Rnum) V rk W G k)) ms rp _ (2 * (Z.to_nat ms + 1))%nat).
    + exact HF.
    + intros i j Hij. rewrite <- !objective_zero. apply HM. exact Hij.
    + destruct stopped; lia.
Qed.
Print Assumptions C76_als.
(** with lambda > 0 the systems are positive definite whatever the factors are: it is enough that the Cholesky routine is right *)
Theorem C76_regularised_systems_exact :
  forall (LA : lapack Rnum) (V : tensor Rnum) (size rk : nat) (W G : list (tensor Rnum)) (lambda : R) (m : cpd_method) (K : nat),
  tri_shaped (cholesky LA) (solve_tri LA) -> cholesky_works (cholesky LA) (solve_tri LA) rk ->
  m = Simple \/ m = TwoSubtree \/ m = MultiSweep -> method_ok m (order V) size rk -> (0 < size)%nat -> lens V = repeat size (order V) ->
  factors_ok V W rk -> 0 < lambda ->
  systems_exact m LA (lambda : Rnum) V rk W G K.
Proof.
  intros LA V size rk W G lambda m K Hsh Hcw Hm3 Hm Hsz Hc HW Hl.
  assert (Hx : exact_method m) by (destruct Hm3 as [->|[->| ->]]; exact I).
  assert (H0 : forall n, (n < order V)%nat -> (0 < nth n (lens V) 0)%nat) by (intros n Hn; rewrite Hc, (nth_indep _ 0%nat size) by (rewrite repeat_length; exact Hn); rewrite nth_repeat; exact Hsz).
  assert (A : forall modes W G, factors_ok V W rk -> (forall n, In n modes -> (n < order V)%nat) -> exact_along (cholesky LA) (solve_tri LA) (lambda : Rnum) V rk modes (W, G)).
  { induction modes as [|n modes IH]; intros W1 G1 HW1 Hi a n1 b E; [destruct a; discriminate|].
    assert (Hn : (n < order V)%nat) by (apply Hi; left; reflexivity).
    assert (C : chol_exact (cholesky LA) (solve_tri LA) (als_lhs (lambda : Rnum) W1 rk n) rk) by (apply Hcw; [apply lhs_mat|apply lhs_sym|eapply lhs_posdef; eauto]).
    destruct a as [|a0 a]; cbn [app] in E; injection E as -> ->; [exact C|].
    unfold ls_modes. cbn [fold_left ls_update].
    apply (IH (setf W1 a0 (chol_solve (cholesky LA) (solve_tri LA) (mttkrp V W1 a0 rk) (als_lhs (lambda : Rnum) W1 rk a0))) (setf G1 a0 (msub (mmul (fac W1 a0) (als_lhs (lambda : Rnum) W1 rk a0)) (mttkrp V W1 a0 rk))) ) with (b := b); auto.
    - apply setf_ok; auto. apply (chol_solves RL); [exact C|apply mttkrp_mat].
    - intros n2 Hn2. apply Hi. right. exact Hn2. }
  assert (A' := A (exact_schedule m (order V) K) W G HW ltac:(intros n Hn; eapply sched_in; eauto)).
  destruct m; cbn [exact_method] in Hx; try tauto; exact A'.
Qed.
Print Assumptions C76_regularised_systems_exact.

(** positive tensors and factors of rank 1 stay positive, so the 1 x 1 systems are positive even for lambda = 0 *)
Lemma chol1_pos (V : tensor Rnum) W (lambda : R) n : positive V -> 0 <= lambda -> (forall m, (m < order V)%nat -> (0 < nth m (lens V) 0)%nat) -> positive_factors V W -> (n < order V)%nat ->
  chol_exact (cholesky LA1) (solve_tri LA1) (als_lhs (lambda : Rnum) W 1 n) 1 /\
  positive_factors V (setf W n (chol_solve (cholesky LA1) (solve_tri LA1) (mttkrp V W n 1) (als_lhs (lambda : Rnum) W 1 n))).
Proof.
  intros HV Hl H0 HW Hn. assert (P : 0 < el (als_lhs (lambda : Rnum) W 1 n) 0 0) by (eapply lhs_pos; eauto).
  assert (C : chol_exact (cholesky LA1) (solve_tri LA1) (als_lhs (lambda : Rnum) W 1 n) 1).
  { apply LA1_cholesky; [apply lhs_mat|apply lhs_sym|]. intros u (i & Hi & Hu). assert (i = 0%nat) by lia. subst i. cbn [seq].
    rewrite !bs_cons. change (bigsum (N:=Rnum) [] ?g) with 0. assert (0 < u 0%nat * u 0%nat) by (apply Rsqr_pos_lt; auto).
    assert (0 < u 0%nat * u 0%nat * el (als_lhs (lambda : Rnum) W 1 n) 0 0) by (apply Rmult_lt_0_compat; auto). lra. }
  split; [exact C|]. destruct (chol_solves RL (cholesky LA1) (solve_tri LA1) _ (mttkrp V W n 1) (nth n (lens V) 0%nat) 1 C (mttkrp_mat _ _ _ _)) as [HX EX].
  set (X := chol_solve (cholesky LA1) (solve_tri LA1) (mttkrp V W n 1) (als_lhs (lambda : Rnum) W 1 n)) in *.
  destruct HW as [HF HP]. split; [apply setf_ok; auto|]. intros m i Hm Hi. destruct HF as (HwV & LW & HM). rewrite fac_setf by lia.
  destruct (Nat.eqb_spec m n) as [->|]; [|apply HP; auto].
  assert (E : el (mmul X (als_lhs (lambda : Rnum) W 1 n)) i 0 = el (mttkrp V W n 1) i 0) by (rewrite EX; reflexivity).
  rewrite (el_mmul _ _ (nth n (lens V) 0%nat) 1 1) in E by (auto; apply lhs_mat). cbn [seq] in E. rewrite bs_cons in E. change (bigsum (N:=Rnum) [] ?g) with 0 in E.
  assert (M : 0 < el (mttkrp V W n 1) i 0).
  { unfold el, mttkrp. rewrite at_tabulate by (apply inb2; auto). apply (mttkrp_pos V); auto. split; [split; [|split]|]; auto. }
  rewrite <- E in M. rewrite Rplus_0_r in M. destruct (Rlt_le_dec 0 (el X i 0)) as [|Hneg]; [assumption|]. exfalso.
  assert (Hle : el X i 0 * el (als_lhs (lambda : Rnum) W 1 n) 0 0 <= 0); [|exact (Rlt_irrefl 0 (Rlt_le_trans _ _ _ M Hle))].
  rewrite <- (Rmult_0_l (el (als_lhs (lambda : Rnum) W 1 n) 0 0)). apply Rmult_le_compat_r; [apply Rlt_le; exact P|exact Hneg].
Qed.
Lemma along1_pos (V : tensor Rnum) (lambda : R) : positive V -> 0 <= lambda -> (forall m, (m < order V)%nat -> (0 < nth m (lens V) 0)%nat) ->
  forall modes W G, positive_factors V W -> (forall n, In n modes -> (n < order V)%nat) -> exact_along (cholesky LA1) (solve_tri LA1) (lambda : Rnum) V 1 modes (W, G).
Proof.
  intros HV Hl H0. induction modes as [|n modes IH]; intros W1 G1 HW1 Hi a n1 b E; [destruct a; discriminate|].
  assert (Hn : (n < order V)%nat) by (apply Hi; left; reflexivity).
  destruct (chol1_pos V W1 lambda n HV Hl H0 HW1 Hn) as [C P].
  destruct a as [|a0 a]; cbn [app] in E; injection E as -> ->; [exact C|].
  unfold ls_modes. cbn [fold_left ls_update].
  apply (IH (setf W1 a0 (chol_solve (cholesky LA1) (solve_tri LA1) (mttkrp V W1 a0 1) (als_lhs (lambda : Rnum) W1 1 a0))) (setf G1 a0 (msub (mmul (fac W1 a0) (als_lhs (lambda : Rnum) W1 1 a0)) (mttkrp V W1 a0 1)))) with (b := b); auto.
  intros n2 Hn2. apply Hi. right. exact Hn2.
Qed.
(** the multi-sweep optimizer without regularisation on a 2x2x2x2 tensor that no rank-1 tensor equals *)
Theorem C76_case :
  tri_shaped (cholesky LA1) (solve_tri LA1) /\ low_shaped (svd LA1) (qr_q LA1) (rnd LA1) /\ method_ok MultiSweep (order eV) 2 1 /\
  lens eV = repeat 2%nat (order eV) /\ factors_ok eV eW 1 /\ mats_ok eV eG 1 /\
  systems_exact MultiSweep LA1 (0 : Rnum) eV 1 eW eG (2 * (Z.to_nat 50 + 1)) /\ resid_norm eV eW 1 = sqrt 80 /\
  exists ret W' G' gn rows es,
    cpd_run LA1 eClock true MultiSweep 102 (order eV) 2 1 eV eW eG (0 : Rnum) (10 : Rnum) (1 : Rnum) 50 10 false eX = Ok (ret, (W', G'), gn, rows) /\
    objective (0 : Rnum) eV W' 1 <= 80 /\ map crow_residual rows = map Some es /\ nonincreasing (sqrt 80 :: es) /\ es <> [].
Proof.
  assert (MG : mats_ok eV eG 1) by (apply e_mats; split; [reflexivity|apply tabulate_wf]).
  assert (O : method_ok MultiSweep (order eV) 2 1) by (cbn; lia).
  assert (SE : systems_exact MultiSweep LA1 (0 : Rnum) eV 1 eW eG (2 * (Z.to_nat 50 + 1))).
  { apply (along1_pos eV 0 e_pos ltac:(lra) e_lenpos _ eW eG e_pos_fac). intros n Hn. apply (sched_in LA1 eV 2 1 eW eG 0 MultiSweep O _ n I Hn). }
  assert (RN : resid_norm eV eW 1 = sqrt 80) by (rewrite (resid_norm_sqrt eV eW 1 e_fac); f_equal; rewrite <- objective_zero, e_objective; lra).
  split; [exact LA1_tri_shaped|]. split; [exact LA1_low_shaped|]. split; [exact O|]. split; [reflexivity|]. split; [exact e_fac|]. split; [exact MG|]. split; [exact SE|]. split; [exact RN|].
  destruct (C76_als LA1 eClock true false eV 2 1 eW eG 0 MultiSweep 102 10 1 50 10 eX LA1_tri_shaped LA1_low_shaped O eq_refl e_fac MG ltac:(lia) ltac:(lia) (le_n 102) SE)
    as (ret & W' & G' & gn & rws & E & _ & H1 & H2). destruct (H2 eq_refl eq_refl) as (es & H3 & H4). exists ret, W', G', gn, rws, es.
  split; [exact E|]. split; [rewrite e_objective in H1; lra|]. split; [exact H3|]. split; [rewrite <- RN; exact H4|]. intros ->.
  destruct (C24_als_run Rnum RL LA1 eClock true eV 2 1 eW eG (0 : Rnum) MultiSweep 102 (10 : Rnum) (1 : Rnum) 50 10 false eX LA1_tri_shaped LA1_low_shaped O eq_refl e_fac MG ltac:(lia) ltac:(lia) (le_n 102))
    as (k & stopped & gn' & rows' & E' & _ & Hr & _ & ER). rewrite E in E'. assert (Err : rws = rows') by congruence. rewrite Err, ER in H3. unfold als_rows in H3. rewrite map_map in H3.
  apply map_eq_nil in H3. destruct (checks (method_part MultiSweep (order eV)) 50 10 (k + (if stopped then 1 else 0))) as [|c cs] eqn:Ec; [|discriminate].
  assert (H0 : checked_at (method_part MultiSweep (order eV)) 50 10 0 = true) by reflexivity.
  assert (Hp : (0 < k + (if stopped then 1 else 0))%nat).
  { destruct Hr as [_ Hr]. destruct stopped; [lia|]. destruct k; [|lia]. exfalso. cbn in Hr. lia. }
  unfold checks in Ec. destruct (k + (if stopped then 1 else 0))%nat; [lia|]. cbn [seq filter] in Ec. rewrite H0 in Ec. discriminate.
Qed.
Print Assumptions C76_case.
