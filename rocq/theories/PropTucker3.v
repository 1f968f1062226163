(** C66, C67: quality of the exact Tucker sweeps, over the reals, for a decomposition routine that returns leading singular vectors. *)
From Coq Require Import List ZArith QArith Reals Lra Lia Bool Arith.
From Verif Require Import Base Num NumR Tensor Spec Spec4 Spec7 Spec8 Spec9 Spec18 MCommon MCP MTucker PBase PTensor PSum PMttkrp PMat PMatAlg PGrad PTtm PTucker PSign PTSweep PTDrivers
  PTuckFit PKyFan PTuckMono PropTucker PropTucker2.
Import ListNotations.
Local Close Scope Q_scope.
Local Close Scope R_scope.

(** ** C66.  With orthonormal factors, |V - full|^2 = |V|^2 - |core|^2 *)
Theorem C66_fit : forall (N : num), ring_laws N -> forall (V : tensor N) (W : list (tensor N)) (ranks : list nat),
  tucker_ok V W ranks -> ortho_factors W ranks ->
  tucker_resid2 V W = nsub (sumsq V) (sumsq (tucker_core V W)).
Proof. intros N RL V W ranks. apply (fit_identity RL). Qed.
Print Assumptions C66_fit.
(** the update of one mode is the best choice of orthonormal columns for that mode, the other factors being what they are *)
Theorem C66_update_is_best :
  forall (LA : lapack Rnum) (V : tensor Rnum) (W : list (tensor Rnum)) (ranks : list nat) (n : nat) (P : tensor Rnum),
  tucker_ok V W ranks -> ranks_ok (lens V) ranks -> n < order V ->
  leading_svd (svd LA) (hooi_request V W n) (nth n (lens V) 0) (nth n ranks 0) ->
  is_mat P (nth n (lens V) 0) (nth n ranks 0) -> ortho_cols P (nth n ranks 0) ->
  let U := hooi_factor (svd LA) V ranks W n in
  ortho_cols U (nth n ranks 0) /\
  (norm2 (tucker_core V (setf W n P)) <= norm2 (tucker_core V (setf W n U)))%R /\
  (ortho_factors W ranks -> (tucker_resid V (setf W n U) <= tucker_resid V (setf W n P))%R).
Proof.
  intros LA V W ranks n P HW Hr Hn Hl HP HO U. pose proof HW as (HV & LW & LR & HM).
  assert (HU : is_mat U (nth n (lens V) 0) (nth n ranks 0)) by (destruct Hl as (?&?&?&?&?&?&H&?); exact H).
  destruct (best_update V W n (nth n ranks 0) Hn ltac:(lia) ltac:(apply Hr; exact Hn) U (leading_lead _ _ _ _ Hl)) as [H1 H2].
  specialize (H2 P HP HO). split; [exact H1|]. split.
  - rewrite !norm2_sumsq by apply ttmc_wf. apply sqrt_le_1_alt. exact H2.
  - intros HOW. rewrite !tucker_resid_sqrt. apply sqrt_le_1_alt.
    assert (X : forall A, is_mat A (nth n (lens V) 0) (nth n ranks 0) -> ortho_cols A (nth n ranks 0) ->
      (tucker_resid2 V (setf W n A) + sumsq (tucker_core V (setf W n A)) = sumsq V)%R).
    { intros A HA HAO. apply (resid_of_core V (setf W n A) ranks).
      - split; auto. split; [rewrite setf_length; auto|]. split; auto. intros m Hm. rewrite fac_setf by lia. destruct (Nat.eqb_spec m n) as [->|]; auto.
      - intros m Hm. rewrite setf_length in Hm. rewrite fac_setf by lia. destruct (Nat.eqb_spec m n) as [->|]; auto. }
    pose proof (X P HP HO). pose proof (X U HU H1). lra.
Qed.
Print Assumptions C66_update_is_best.
(** the sweeps: from the first one on the factors are orthonormal, |residual|^2 + |core|^2 = |V|^2, and the residual never increases *)
Theorem C66_sweeps :
  forall (LA : lapack Rnum) (V : tensor Rnum) (W : list (tensor Rnum)) (ranks : list nat),
  tucker_ok V W ranks -> ranks_ok (lens V) ranks -> leading_along (svd LA) V ranks W ->
  let Wf k := Nat.iter k (hooi_sweep (svd LA) V ranks) W in
  forall j k, 1 <= j \/ ortho_factors W ranks -> j <= k ->
  ortho_factors (Wf k) ranks /\
  (tucker_resid V (Wf k) * tucker_resid V (Wf k) + norm2 (tucker_core V (Wf k)) * norm2 (tucker_core V (Wf k)) = norm2 V * norm2 V)%R /\
  (norm2 (tucker_core V (Wf j)) <= norm2 (tucker_core V (Wf k)) <= norm2 V)%R /\
  (tucker_resid V (Wf k) <= tucker_resid V (Wf j))%R.
Proof.
  intros LA V W ranks HW Hr Hl Wf j k H Hjk. assert (HV : wf V) by apply HW.
  assert (Hk : 1 <= k \/ ortho_factors W ranks) by (destruct H; [left; lia|right; auto]).
  assert (OK := Wf_ok (svd LA) V ranks W Hr HW Hl k). assert (OO := Wf_ortho (svd LA) V ranks W Hr HW Hl k Hk).
  split; [exact OO|]. split; [|split; [split|]].
  - rewrite tucker_resid_sqrt, !norm2_sumsq by (auto; apply ttmc_wf). rewrite !sqrt_sqrt by (unfold tucker_resid2; apply sumsq_nonneg).
    apply (resid_of_core V (Wf k) ranks); auto.
  - rewrite !norm2_sumsq by apply ttmc_wf. apply sqrt_le_1_alt. apply (Wf_mono (svd LA) V ranks W); auto.
  - rewrite !norm2_sumsq by (auto; apply ttmc_wf). apply sqrt_le_1_alt. apply (core_le V (Wf k) ranks); auto.
  - apply (Wf_resid (svd LA) V ranks W); auto.
Qed.
Print Assumptions C66_sweeps.

(** the residual written in a row of the log *)
Definition row_residual (r : row (N:=Rnum)) : option R := match r with Row _ _ _ _ _ e _ => Some e | _ => None end.
Definition nonincreasing (es : list R) : Prop := forall a b, a <= b < length es -> (nth b es 0 <= nth a es 0)%R.
Lemma filter_sorted chk (l : list nat) : forall a b, a <= b < length (filter chk l) -> (forall i j, i <= j < length l -> nth i l 0 <= nth j l 0) ->
  nth a (filter chk l) 0 <= nth b (filter chk l) 0.
Proof.
  induction l as [|x l IH]; intros a b Hab Hs; cbn [filter] in *; [cbn in Hab; lia|].
  assert (Hs' : forall i j, i <= j < length l -> nth i l 0 <= nth j l 0) by (intros i j Hij; apply (Hs (S i) (S j)); cbn; lia).
  destruct (chk x); [|apply IH; auto]. destruct a, b; cbn [nth length] in *; try lia; [|apply IH; auto; lia].
  assert (Hin : In (nth b (filter chk l) 0) l) by (apply (incl_filter chk l), nth_In; lia).
  destruct (In_nth _ _ 0 Hin) as (p & Hp & <-). apply (Hs 0 (S p)). cbn. lia.
Qed.
Lemma checked_sorted chk n a b : a <= b < length (checked_below chk n) -> nth a (checked_below chk n) 0 <= nth b (checked_below chk n) 0.
Proof.
  intros H. apply filter_sorted; auto. intros i j Hij. rewrite seq_length in Hij. rewrite !seq_nth by lia. lia.
Qed.
Lemma checked_pos chk n a : chk 0 = false -> a < length (checked_below chk n) -> 1 <= nth a (checked_below chk n) 0.
Proof.
  intros H0 Ha. assert (Hin : In (nth a (checked_below chk n) 0) (checked_below chk n)) by (apply nth_In; auto).
  apply filter_In in Hin as [_ Hc]. destruct (nth a (checked_below chk n) 0); [congruence|lia].
Qed.
Lemma tk_chk0 maxiter resprint : (1 <= maxiter)%Z -> tk_checked maxiter resprint 0 = false.
Proof. intros H. unfold tk_checked. cbn [Nat.eqb negb]. rewrite andb_false_r. cbn [orb]. apply Z.eqb_neq. cbn. lia. Qed.
Lemma plain_chk0 maxiter : (1 <= maxiter)%Z -> plain_checked maxiter 0 = false.
Proof. intros H. unfold plain_checked. cbn [Nat.eqb negb]. rewrite andb_false_r. cbn [orb]. apply Z.eqb_neq. cbn. lia. Qed.

(** a run of alsTucker_DT: the residuals of the rows it appends to the log never increase *)
Theorem C66_logged_residuals :
  forall (LA : lapack Rnum), svd_trunc_shaped (svd LA) ->
  forall (clock : nat -> R) (V core : tensor Rnum) (W : list (tensor Rnum)) (ranks : list nat) (tol limit : R) (maxiter resprint : Z)
    (fuel : nat) (x : io (N:=Rnum)),
  order V = 2 \/ order V = 4 \/ 6 <= order V <= 10 -> order V < fuel -> (1 <= maxiter)%Z -> resprint <> 0%Z ->
  tucker_ok V W ranks -> ranks_ok (lens V) ranks -> lens core = ranks -> leading_along (svd LA) V ranks W ->
  exists ret st new es,
    alsTucker_DT LA clock true fuel V core W (tol : Rnum) limit maxiter resprint false x = Ok (ret, st) /\
    rows (kio st) = rows x ++ new /\ map row_residual new = map Some es /\ nonincreasing es /\
    (ortho_factors W ranks -> (tucker_resid V (kW st) <= tucker_resid V W)%R).
Proof.
  intros LA HS clock V core W ranks tol limit maxiter resprint fuel x Ho Hf Hm Hr HW HR LC Hl.
  destruct (C54_dimension_tree_run Rnum Rnum_ring Rsqrt_nonneg LA HS clock true V core W ranks tol limit maxiter resprint false fuel x Ho Hf ltac:(lia) Hr HW HR LC)
    as (k & stopped & st & E & _ & EW & _ & _ & ER).
  set (Wf k := Nat.iter k (hooi_sweep (svd LA) V ranks) W) in *. set (chk := tk_checked maxiter resprint) in *.
  set (n := k + (if stopped then 1 else 0)) in *. set (ix := fun j => nth j (checked_below chk n) 0).
  exists stopped, st, (tk_report (N:=Rnum) clock V (ck x) chk core Wf tol false n), (map (fun j => tucker_resid V (Wf (ix j))) (seq 0 (length (checked_below chk n)))).
  split; [exact E|]. split; [exact ER|]. split; [|split].
  - unfold tk_report. rewrite !map_map. reflexivity.
  - intros a b Hab. rewrite map_length, seq_length in Hab. rewrite !nth_map_lt with (d:=0) by (rewrite seq_length; lia).
    rewrite !seq_nth by lia. cbn [plus]. apply (Wf_resid (svd LA) V ranks W); auto.
    + left. apply checked_pos; [apply tk_chk0; auto|lia].
    + apply checked_sorted. lia.
  - intros HO. rewrite EW. apply (Wf_resid (svd LA) V ranks W HR HW Hl 0 k); [right; auto|lia].
Qed.
Print Assumptions C66_logged_residuals.
(** a run of alsTucker that starts from orthonormal factors returns factors that are at least as good *)
Theorem C66_plain_run :
  forall (LA : lapack Rnum), svd_trunc_shaped (svd LA) ->
  forall (clock : nat -> R) (V core : tensor Rnum) (W : list (tensor Rnum)) (ranks : list nat) (tol limit : R) (maxiter : Z) (x : io (N:=Rnum)),
  2 <= order V <= 10 -> (0 <= maxiter)%Z ->
  tucker_ok V W ranks -> ranks_ok (lens V) ranks -> lens core = ranks -> leading_along (svd LA) V ranks W -> ortho_factors W ranks ->
  exists ret st, alsTucker LA clock V core W (tol : Rnum) limit maxiter x = Ok (ret, st) /\
    ortho_factors (kW st) ranks /\ (tucker_resid V (kW st) <= tucker_resid V W)%R.
Proof.
  intros LA HS clock V core W ranks tol limit maxiter x Ho Hm HW HR LC Hl HO.
  destruct (C54_plain_run Rnum Rnum_ring Rsqrt_nonneg LA HS clock V core W ranks tol limit maxiter x Ho Hm HW HR LC)
    as (k & stopped & st & E & _ & EW & _).
  exists stopped, st. split; [exact E|]. rewrite EW. split.
  - apply (Wf_ortho (svd LA) V ranks W); auto.
  - apply (Wf_resid (svd LA) V ranks W HR HW Hl 0 k); [right; auto|lia].
Qed.
Print Assumptions C66_plain_run.

(** ** C67.  With a positive tolerance, and while the time limit is not reached, alsTucker_DT converges: if maxiter is so large that
    (maxiter / resprint - 1) * tol > |V| (integer division), the run is ended by a check that finds a change below tol *)
Lemma nltb_lt (a b : R) : nltb (n:=Rnum) a b = true -> (a < b)%R.
Proof. cbn. destruct (Rltb_spec a b); [auto|discriminate]. Qed.
Lemma change_big (chk : nat -> bool) (c : nat -> R) (tol : R) late i : tk_stops (N:=Rnum) late chk c tol i = false -> chk i = true -> (tol <= c i)%R.
Proof.
  unfold tk_stops. intros H E. rewrite E in H. cbn [andb] in H. apply orb_false_iff in H as [H _]. cbn in H. destruct (Rltb_spec (c i) tol); [discriminate|lra].
Qed.
Lemma enough_iterations (M r : Z) (k : nat) (tol B : R) : (1 <= r)%Z -> Z.of_nat k = (M + 1)%Z -> (0 <= M)%Z -> (0 < tol)%R ->
  (B < IZR (M / r - 1) * tol)%R -> (B < INR ((k - 1) / Z.to_nat r) * tol - tol)%R.
Proof.
  intros Hr Hk HM Ht H. replace (INR ((k - 1) / Z.to_nat r)) with (IZR (M / r)).
  - rewrite minus_IZR in H. lra.
  - rewrite INR_IZR_INZ. f_equal. rewrite Nat2Z.inj_div, Z2Nat.id by lia. f_equal. lia.
Qed.
Section Conv.
Context (LA : lapack Rnum) (V core : tensor Rnum) (W : list (tensor Rnum)) (ranks : list nat) (chk : nat -> bool) (tol : R).
Hypothesis HW : tucker_ok V W ranks.
Hypothesis HR : ranks_ok (lens V) ranks.
Hypothesis Hl : leading_along (svd LA) V ranks W.
Hypothesis chk0 : chk 0 = false.
Let Wf k := Nat.iter k (hooi_sweep (svd LA) V ranks) W.
Let change := core_change chk core (fun k => tucker_core V (Wf k)).
Lemma few_checks late k : (0 < tol)%R -> (forall i, i < k -> tk_stops late chk change (tol : Rnum) i = false) ->
  (INR (length (checked_below chk k)) * tol - tol <= norm2 V)%R.
Proof.
  intros Ht H. apply (checks_few chk core (fun k => tucker_core V (Wf k)) tol (norm2 V) chk0); auto.
  - intros i j Hij. apply (C66_sweeps LA V W ranks HW HR Hl i j); [left; lia|lia].
  - intros i Hi. apply (C66_sweeps LA V W ranks HW HR Hl i i); [left; lia|lia].
  - apply sqrt_pos.
  - intros i Hi Ec. eapply change_big; eauto.
Qed.
End Conv.
Lemma tk_multiples maxiter resprint q : (1 <= resprint)%Z -> 1 <= q -> tk_checked maxiter resprint (q * Z.to_nat resprint) = true.
Proof.
  intros Hr Hq. unfold tk_checked. rewrite Nat2Z.inj_mul, Z2Nat.id by lia. rewrite Z.rem_mul by lia. rewrite Z.eqb_refl. cbn [andb].
  destruct (Nat.eqb_spec (q * Z.to_nat resprint) 0) as [E|]; [nia|reflexivity].
Qed.
Lemma plain_multiples maxiter q : 1 <= q -> plain_checked maxiter (q * 100) = true.
Proof.
  intros Hq. unfold plain_checked. rewrite Nat2Z.inj_mul. change (Z.of_nat 100) with 100%Z. rewrite Z.rem_mul by lia. rewrite Z.eqb_refl. cbn [andb].
  destruct (Nat.eqb_spec (q * 100) 0) as [E|]; [nia|reflexivity].
Qed.
Theorem C67_dimension_tree_converges :
  forall (LA : lapack Rnum), svd_trunc_shaped (svd LA) ->
  forall (clock : nat -> R) (rank0 bench : bool) (V core : tensor Rnum) (W : list (tensor Rnum)) (ranks : list nat) (tol limit : R) (maxiter resprint : Z)
    (fuel : nat) (x : io (N:=Rnum)),
  order V = 2 \/ order V = 4 \/ 6 <= order V <= 10 -> order V < fuel -> (1 <= maxiter)%Z -> (1 <= resprint)%Z ->
  tucker_ok V W ranks -> ranks_ok (lens V) ranks -> lens core = ranks -> leading_along (svd LA) V ranks W ->
  (forall j, out_of_time (N:=Rnum) clock (ck x) limit j = false) ->
  (0 < tol)%R -> (norm2 V < IZR (maxiter / resprint - 1) * tol)%R ->
  exists st, alsTucker_DT LA clock rank0 fuel V core W (tol : Rnum) limit maxiter resprint bench x = Ok (true, st) /\
    ortho_factors (kW st) ranks /\ kcore st = tucker_core V (kW st) /\ (kdn st < tol)%R.
Proof.
  intros LA HS clock rank0 bench V core W ranks tol limit maxiter resprint fuel x Ho Hf Hm Hr HW HR LC Hl Hlate Ht Hbig.
  destruct (C54_dimension_tree_run Rnum Rnum_ring Rsqrt_nonneg LA HS clock rank0 V core W ranks tol limit maxiter resprint bench fuel x Ho Hf ltac:(lia) ltac:(lia) HW HR LC)
    as (k & stopped & st & E & [Hrun Hend] & EW & EC & Ed & _).
  set (Wf k := Nat.iter k (hooi_sweep (svd LA) V ranks) W) in *. set (chk := tk_checked maxiter resprint) in *.
  assert (Hc0 : chk 0 = false) by (apply tk_chk0; auto).
  assert (Hfew := few_checks LA V core W ranks chk tol HW HR Hl Hc0 _ k Ht Hrun).
  destruct stopped.
  - exists st. split; [exact E|]. rewrite EW. destruct Hend as [_ Hs].
    assert (Hk : 1 <= k) by (destruct k; [unfold tk_stops in Hs; rewrite Hc0 in Hs; discriminate Hs|lia]).
    split; [apply (Wf_ortho (svd LA) V ranks W); auto|]. split; [rewrite EC; reflexivity|]. rewrite Ed by auto.
    unfold tk_stops in Hs. rewrite Hlate, orb_false_r in Hs. apply andb_true_iff in Hs as [_ Hs]. apply nltb_lt in Hs. exact Hs.
  - exfalso. assert (Hmany : (k - 1) / Z.to_nat resprint <= length (checked_below chk k)).
    { apply checks_many; [lia|]. intros q Hq. apply tk_multiples; auto. }
    apply le_INR in Hmany. pose proof (enough_iterations maxiter resprint k tol (norm2 V) Hr Hend ltac:(lia) Ht Hbig).
    cbn in *. nra.
Qed.
Print Assumptions C67_dimension_tree_converges.
Theorem C67_plain_converges :
  forall (LA : lapack Rnum), svd_trunc_shaped (svd LA) ->
  forall (clock : nat -> R) (V core : tensor Rnum) (W : list (tensor Rnum)) (ranks : list nat) (tol limit : R) (maxiter : Z) (x : io (N:=Rnum)),
  2 <= order V <= 10 -> (1 <= maxiter)%Z ->
  tucker_ok V W ranks -> ranks_ok (lens V) ranks -> lens core = ranks -> leading_along (svd LA) V ranks W ->
  (forall j, plain_out_of_time (N:=Rnum) clock (ck x) limit j = false) ->
  (0 < tol)%R -> (norm2 V < IZR (maxiter / 100 - 1) * tol)%R ->
  exists st, alsTucker LA clock V core W (tol : Rnum) limit maxiter x = Ok (true, st) /\
    ortho_factors (kW st) ranks /\ kcore st = tucker_core V (kW st) /\ (kdn st < tol)%R.
Proof.
  intros LA HS clock V core W ranks tol limit maxiter x Ho Hm HW HR LC Hl Hlate Ht Hbig.
  destruct (C54_plain_run Rnum Rnum_ring Rsqrt_nonneg LA HS clock V core W ranks tol limit maxiter x Ho ltac:(lia) HW HR LC)
    as (k & stopped & st & E & [Hrun Hend] & EW & EC & Ed).
  set (Wf k := Nat.iter k (hooi_sweep (svd LA) V ranks) W) in *. set (chk := plain_checked maxiter) in *.
  assert (Hc0 : chk 0 = false) by (apply plain_chk0; auto).
  assert (Hfew := few_checks LA V core W ranks chk tol HW HR Hl Hc0 _ k Ht Hrun).
  destruct stopped.
  - exists st. split; [exact E|]. rewrite EW. destruct Hend as [_ Hs].
    assert (Hk : 1 <= k) by (destruct k; [unfold tk_stops in Hs; rewrite Hc0 in Hs; discriminate Hs|lia]).
    split; [apply (Wf_ortho (svd LA) V ranks W); auto|]. split; [rewrite EC; reflexivity|]. rewrite Ed by auto.
    unfold tk_stops in Hs. rewrite Hlate, orb_false_r in Hs. apply andb_true_iff in Hs as [_ Hs]. apply nltb_lt in Hs. exact Hs.
  - exfalso. assert (Hmany : (k - 1) / 100 <= length (checked_below chk k)).
    { apply checks_many; [lia|]. intros q Hq. apply plain_multiples; auto. }
    apply le_INR in Hmany. pose proof (enough_iterations maxiter 100 k tol (norm2 V) ltac:(lia) Hend ltac:(lia) Ht Hbig) as X. change (Z.to_nat 100) with 100 in X.
    set (q := (k - 1) / 100) in *. clearbody q. cbn in *. nra.
Qed.
Print Assumptions C67_plain_converges.
(** *** a case: V = diag(2,1), ranks 1 and 1; the start is neither orthonormal nor optimal *)
Definition qV : tensor Rnum := @mkT Rnum [2; 2] [2; 0; 0; 1]%R.
Definition qI (n k : nat) : tensor Rnum := tabulate [n; k] (fun x => if Nat.eqb (nth 0 x 0) (nth 1 x 0) then 1%R : Rnum else 0%R).
(** returns the first columns of the identity *)
Definition LAid : lapack Rnum :=
  @mkLapack Rnum (fun G k => (qI (nrow G) k, zeros [k], zeros [k; ncol G])) (fun A => A) (fun B L _ _ _ => B) (fun A => A) (fun _ ls => zeros ls).
Definition qc (a b : R) : tensor Rnum := @mkT Rnum [2; 1] [a; b]%R.
Definition qW : list (tensor Rnum) := [qc 0 1; qc 2 0].
Ltac qcalc := cbv -[Rplus Rmult Rminus Ropp Rinv IZR Rdiv].
Lemma q_req0 X a : hooi_request qV [X; qc a 0] 0 = @mkT Rnum [2; 2] [4 * a * a; 0; 0; 0]%R.
Proof. qcalc. f_equal. repeat (apply f_equal2; [ring|]). reflexivity. Qed.
Lemma q_req1 X a : hooi_request qV [qc a 0; X] 1 = @mkT Rnum [2; 2] [4 * a * a; 0; 0; 0]%R.
Proof. qcalc. f_equal. repeat (apply f_equal2; [ring|]). reflexivity. Qed.
Lemma q_leading d : (0 <= d)%R -> leading_svd (svd LAid) (@mkT Rnum [2; 2] [d; 0; 0; 0]%R) 2 1.
Proof.
  intros Hd. exists (qI 2 2), (@mkT Rnum [2] [d; 0]%R), (qI 2 2).
  assert (E1 : mmul (qI 2 2) (qI 2 2) = mid 2) by (qcalc; f_equal; repeat (apply f_equal2; [ring|]); reflexivity).
  assert (E2 : mtrans (qI 2 2) = qI 2 2) by reflexivity.
  split; [|split; [|split; [|split]]].
  - split; [split; reflexivity|]. split; [reflexivity|]. split; [reflexivity|]. split; [split; reflexivity|]. rewrite E2, E1.
    split; [|auto]. qcalc. f_equal. repeat (apply f_equal2; [ring|]). reflexivity.
  - intros i Hi. apply Rnle. destruct i as [|[|i]]; [exact Hd|cbn; lra|lia].
  - intros i j Hij. apply Rnle. destruct i as [|[|i]], j as [|[|j]]; cbn; try lia; lra.
  - split; reflexivity.
  - intros a j Ha Hj. destruct a as [|[|a]], j as [|j]; try lia; reflexivity.
Qed.
Lemma q_sweep0 X a : hooi_update (svd LAid) qV [1; 1] [X; qc a 0] 0 = [qc 1 0; qc a 0].
Proof. unfold hooi_update, hooi_factor. fold (hooi_request qV [X; qc a 0] 0). rewrite q_req0. reflexivity. Qed.
Lemma q_sweep1 X a : hooi_update (svd LAid) qV [1; 1] [qc a 0; X] 1 = [qc a 0; qc 1 0].
Proof. unfold hooi_update, hooi_factor. fold (hooi_request qV [qc a 0; X] 1). rewrite q_req1. reflexivity. Qed.
Lemma q_sweep X a : hooi_sweep (svd LAid) qV [1; 1] [X; qc a 0] = [qc 1 0; qc 1 0].
Proof. unfold hooi_sweep, hooi_upto. change (order qV) with 2. cbn [seq fold_left]. rewrite q_sweep0, q_sweep1. reflexivity. Qed.
Lemma q_iter j : exists X a, Nat.iter j (hooi_sweep (svd LAid) qV [1; 1]) qW = [X; qc a 0].
Proof. induction j as [|j (X & a & E)]; [exists (qc 0 1), 2%R; reflexivity|]. cbn [Nat.iter]. change (Nat.iter (S j) (hooi_sweep (svd LAid) qV [1; 1]) qW) with (hooi_sweep (svd LAid) qV [1; 1] (Nat.iter j (hooi_sweep (svd LAid) qV [1; 1]) qW)).
  rewrite E, q_sweep. exists (qc 1 0), 1%R. reflexivity. Qed.
Theorem C66_case :
  svd_trunc_shaped (svd LAid) /\ tucker_ok qV qW [1; 1] /\ ranks_ok (lens qV) [1; 1] /\ leading_along (svd LAid) qV [1; 1] qW /\
  ortho_factors [qc 1 0; qc 1 0] [1; 1] /\ ~ ortho_factors qW [1; 1] /\
  tucker_resid2 qV qW = 5%R /\ tucker_resid2 qV (hooi_sweep (svd LAid) qV [1; 1] qW) = 1%R /\ (norm2 qV < IZR (5 / 1 - 1) * 1)%R.
Proof.
  split; [|split; [|split; [|split; [|split; [|split]]]]].
  - intros G n k [HG _] Hk. cbn. unfold nrow. rewrite HG. cbn [nth]. split; [split; [reflexivity|apply tabulate_wf]|split; [reflexivity|apply tabulate_wf]].
  - split; [reflexivity|]. split; [reflexivity|]. split; [reflexivity|]. intros m Hm. cbn in Hm. destruct m as [|[|m]]; try lia; split; reflexivity.
  - split; [reflexivity|]. intros m Hm. cbn in Hm. destruct m as [|[|m]]; cbn; lia.
  - intros j n Hn. destruct (q_iter j) as (X & a & E). rewrite E. change (order qV) with 2 in Hn.
    destruct n as [|[|n]]; [..|lia].
    + unfold hooi_upto. cbn [seq fold_left nth lens qV]. fold qV. rewrite q_req0. apply q_leading. nra.
    + unfold hooi_upto. cbn [seq fold_left nth lens qV]. fold qV. rewrite q_sweep0, q_req1. apply q_leading. lra.
  - intros m Hm. cbn in Hm. destruct m as [|[|m]]; [..|lia]; unfold ortho_cols; qcalc; f_equal; f_equal; ring.
  - intros H. specialize (H 1 ltac:(cbn; lia)). unfold ortho_cols in H. assert (X : el (mmul (mtrans (fac qW 1)) (fac qW 1)) 0 0 = el (mid (nth 1 [1; 1] 0)) 0 0) by (rewrite H; reflexivity).
    revert X. qcalc. intros X. lra.
  - split; [|split].
    + qcalc. lra.
    + unfold qW. rewrite q_sweep. qcalc. lra.
    + change (norm2 qV) with (sqrt (2 * 2 + (0 * 0 + (0 * 0 + (1 * 1 + 0))))). change (5 / 1 - 1)%Z with 4%Z.
      apply Rle_lt_trans with (sqrt (3 * 3)); [apply sqrt_le_1_alt; lra|rewrite sqrt_square; lra].
Qed.
Print Assumptions C66_case.
