(** Over the reals: what the phases and the driver of the pairwise-perturbation Tucker method do to factors and residuals *)
From Coq Require Import List ZArith QArith Lia Bool Arith Reals Lra Permutation.
From Verif Require Import Base Num NumR Tensor Spec Spec2 Spec7 Spec8 Spec9 Spec12 Spec13 Spec18 Spec20 Spec24 MCommon MCP MTucker PBase PTensor PSum PPart PMat PMatAlg PMttkrp PGrad PResid PTtm PTucker PSign PTSweep PTuckFit PKyFan
  PTuckMono PRank PNormalize PALS PMono PMono2 PTree PDT PDTSweep PDrivers PPP PPPSweep PPPDriver PDriverRef PConv PConv2 PPPMulti PErr PErr2 PTuckPP PTuckPP2.
Import ListNotations.
Local Close Scope Q_scope.
Local Open Scope R_scope.
Local Notation RL := Rnum_ring.

(** the residuals of a log: b bounds the next one, B all *)
Fixpoint chain (B b : R) (l : list (row (N:=Rnum))) (b' : R) : Prop :=
  match l with
  | [] => b = b'
  | Row _ _ _ _ ph e _ :: l => e <= b /\ chain B (if Nat.eqb ph 0 then e else B) l b'
  | _ :: _ => False
  end.
Lemma chain_app B l1 l2 : forall b m b', chain B b l1 m -> chain B m l2 b' -> chain B b (l1 ++ l2) b'.
Proof.
  induction l1 as [|r l1 IH]; intros b m b' H1 H2; [cbn in H1; subst; exact H2|]. destruct r; try contradiction. destruct H1 as [H1 H1']. split; [exact H1|eapply IH; eauto].
Qed.
Lemma chain_all B l : forall b b', b <= B -> chain B b l b' -> b' <= B /\ forall d it g t ph e s, In (Row (N:=Rnum) d it g t ph e s) l -> e <= B.
Proof.
  induction l as [|r l IH]; intros b b' Hb H; [cbn in H; subst; split; [auto|intros; contradiction]|]. destruct r as [d it g t ph e s| |]; try contradiction. destruct H as [He H].
  destruct (IH (if Nat.eqb ph 0 then e else B) b') as [H1 H2]; auto; [destruct (Nat.eqb ph 0); lra|]. split; auto.
  intros d' it' g' t' ph' e' s' [E|Hin]; [injection E; intros; subst; lra|eapply H2; eauto].
Qed.
Lemma chain_never_up B l : forall b b', chain B b l b' -> never_up_after_exact l.
Proof.
  induction l as [|r l IH]; intros b b' H i d it g t e s d' it' g' t' ph' e' s' H1 H2; [destruct i; discriminate|].
  destruct r as [d0 it0 g0 t0 ph0 e0 s0| |]; try contradiction. destruct H as [He H]. destruct i as [|i].
  - cbn in H1. injection H1; intros; subst. destruct l as [|r' l']; [discriminate|]. cbn in H2. injection H2; intros; subst. cbn in H. tauto.
  - cbn in H1. eapply (IH _ _ H i); eauto.
Qed.

Section R.
Context (svd : tensor Rnum -> nat -> tensor Rnum * tensor Rnum * tensor Rnum) (V : tensor Rnum) (ranks : list nat).
Let o := order V.
Hypothesis Hr : ranks_ok (lens V) ranks.
Hypothesis HV : wf V.
Hypothesis Hl : svd_leading svd (lens V) ranks.
Definition orth (W : list (tensor Rnum)) : Prop := tucker_ok V W ranks /\ ortho_factors W ranks.

Lemma exact_lead prev W n : (n < o)%nat ->
  lead_cols (aligned (hooi_factor svd V ranks W n) (fac prev n)) (hooi_request V W n) (nth n (lens V) 0%nat) (nth n ranks 0%nat).
Proof.
  intros Hn. apply lead_aligned, leading_lead. apply Hl; auto; [rewrite ttmc_order; reflexivity|apply request_lens; auto].
Qed.
Lemma exact_any prev W : tucker_ok V W ranks -> orth (hooi_aligned_upto svd V ranks prev o W).
Proof.
  intros HW. apply (sweep_ortho V ranks (fun W n => aligned (hooi_factor svd V ranks W n) (fac prev n)) Hr W HW). intros n Hn. apply exact_lead. auto.
Qed.
Lemma resid_le W W' : orth W -> orth W' -> sumsq (tucker_core V W) <= sumsq (tucker_core V W') -> tucker_resid V W' <= tucker_resid V W.
Proof.
  intros [H1 H2] [H1' H2'] H. rewrite !tucker_resid_sqrt. apply sqrt_le_1_alt.
  pose proof (resid_of_core V W ranks H1 H2). pose proof (resid_of_core V W' ranks H1' H2'). lra.
Qed.
Lemma exact_mono prev W : orth W -> tucker_resid V (hooi_aligned_upto svd V ranks prev o W) <= tucker_resid V W.
Proof.
  intros HW. pose proof HW as [H1 H2]. apply resid_le; auto; [apply exact_any; auto|].
  apply (PTuckMono.sweep_core V ranks (fun W n => aligned (hooi_factor svd V ranks W n) (fac prev n)) Hr W H1); auto. intros n Hn. apply exact_lead. auto.
Qed.
Lemma resid_top W : orth W -> tucker_resid V W <= norm2 V.
Proof.
  intros [H1 H2]. apply sq_le; [apply norm2_pos|]. pose proof (resid_sq V ranks HV W H1 H2) as E. pose proof (Rle_0_sqr (norm2 (tucker_core V W))) as P. unfold Rsqr in P.
  set (x := tucker_resid V W * tucker_resid V W) in *. set (y := norm2 (tucker_core V W) * norm2 (tucker_core V W)) in *. set (v := norm2 V * norm2 V) in *.
  clearbody x y v. change (car Rnum) with R in *. lra.
Qed.

(** states of the approximate phase around W0 *)
Definition around (W0 W dW : list (tensor Rnum)) : Prop := orth W0 /\ shaped V ranks dW /\ W = perturbed W0 dW /\ orth W.
Lemma around_start W : orth W -> around W W (zfacs V ranks).
Proof.
  intros H. split; [auto|]. split; [apply zfacs_shaped|]. split; [symmetry; apply (perturbed_zero V ranks); apply ok_shaped; apply H|auto].
Qed.
Lemma approx_leading W0 W dW : shaped V ranks W0 -> tpp_leading svd V ranks W0 W dW.
Proof.
  intros H0 n Hn. apply Hl; auto.
  - unfold order. cbn [pp_ttmc tabulate lens]. rewrite ttmc_lens_length. reflexivity.
  - cbn [pp_ttmc tabulate lens]. rewrite ttmc_lens_nth by auto. rewrite existsb_not; auto. intros Hi. apply others_in in Hi. lia.
Qed.
Lemma around_step W0 W dW : around W0 W dW ->
  around W0 (fst (tpp_sweep svd V ranks W0 (W, dW))) (snd (tpp_sweep svd V ranks W0 (W, dW))) /\
  norm2 (tucker_core V W) <= norm2 (tucker_core V (fst (tpp_sweep svd V ranks W0 (W, dW)))) + 2 * norm2 V * sweep_loss o dW (snd (tpp_sweep svd V ranks W0 (W, dW))).
Proof.
  intros (H0 & HD & EW & HW). pose proof (ok_shaped V ranks W0 (proj1 H0)) as HS.
  destruct (T_inv V ranks Hr svd W0 W dW HS HD EW (proj2 HW) (approx_leading W0 W dW HS) o (le_n _)) as (I1 & I2 & I3).
  split.
  - split; [auto|]. split; [exact I1|]. split; [exact I2|]. split; [|exact I3]. unfold tpp_sweep. fold o. rewrite I2. apply (shaped_ok V ranks Hr HV).
    apply perturbed_shaped; auto.
  - apply (sweep_core_loss V ranks Hr HV svd W0 W dW HS (proj2 H0) HD EW (proj2 HW)). apply approx_leading; auto.
Qed.

Context (clk : nat -> R) (tol limit : R) (maxiter resprint : Z).
Notation tkst := (tk_state (N:=Rnum)).

(** *** the exact phase *)
Lemma fin_rows (c : nat -> R) (a l : R) (g : R) (x : io (N:=Rnum)) : rows (snd (finished (N:=Rnum) c (g : Rnum) a l x)) = rows x.
Proof. unfold finished. destruct (nltb _ _); reflexivity. Qed.
Lemma exact_check_kW rank0 it (k : tkst) : kW (snd (tk_exact_check (N:=Rnum) clk rank0 V tol limit it k)) = kW k.
Proof. unfold tk_exact_check. destruct (timed _ _) as [dt x]. destruct (finished _ _ _ _ _) as [stop x']. reflexivity. Qed.
Lemma exact_check_rows it (k : tkst) : exists g s, rows (kio (snd (tk_exact_check (N:=Rnum) clk true V tol limit it k)))
  = rows (kio k) ++ [Row (N:=Rnum) (nth 0 (lens V) 0%nat) it g tol 0 (tucker_resid V (kW k)) s].
Proof.
  unfold tk_exact_check. destruct (timed _ (kio k)) as [dt x] eqn:Et. destruct (finished _ _ _ _ _) as [stop x'] eqn:Ef. cbn [snd kio].
  match type of Ef with finished _ ?g _ _ ?y = _ => assert (E := fin_rows clk tol limit g y) end. rewrite Ef in E. cbn [snd] in E. rewrite E.
  unfold timed in Et. injection Et as _ <-. cbn [written rows]. eauto.
Qed.
Notation EX := (tk_exact_phase (N:=Rnum) clk).
Lemma exact_orth rank0 ti : forall n it prev (k : tkst), orth (kW k) ->
  orth (kW (snd (EX rank0 svd V ranks tol limit maxiter resprint ti n it prev k))) /\
  tucker_resid V (kW (snd (EX rank0 svd V ranks tol limit maxiter resprint ti n it prev k))) <= tucker_resid V (kW k).
Proof.
  induction n as [|n IH]; intros it prev k Hk; cbn [tk_exact_phase]; [split; [exact Hk|apply Rle_refl]|].
  assert (Hc : kW (snd (if tk_due maxiter resprint it then tk_exact_check (N:=Rnum) clk rank0 V tol limit it k else (false, k))) = kW k)
    by (destruct (tk_due _ _ _); [apply exact_check_kW|reflexivity]).
  destruct (if tk_due maxiter resprint it then _ else _) as [stop k1]. cbn [snd] in Hc. destruct stop; [cbn [snd]; rewrite Hc; split; [exact Hk|apply Rle_refl]|].
  cbv zeta. rewrite Hc. fold o. pose proof (exact_any prev (kW k) (proj1 Hk)) as A. pose proof (exact_mono prev (kW k) Hk) as B.
  destruct (settled _ _ _ _); [cbn [snd kW]; auto|].
  destruct (IH (it + 1)%Z (hooi_aligned_upto svd V ranks prev o (kW k)) (mkTk (hooi_aligned_upto svd V ranks prev o (kW k)) (tucker_core V (hooi_aligned_upto svd V ranks prev o (kW k))) (kprev k1) (differences V (hooi_aligned_upto svd V ranks prev o (kW k)) prev) (kdn k1) (kio k1)) A) as [C D].
  split; [exact C|]. eapply Rle_trans; [exact D|exact B].
Qed.
Lemma exact_chain ti b : forall n it prev (k : tkst), orth (kW k) -> tucker_resid V (kW k) <= b ->
  let r := EX true svd V ranks tol limit maxiter resprint ti n it prev k in
  exists l b', rows (kio (snd r)) = rows (kio k) ++ l /\ chain (norm2 V) b l b' /\ tucker_resid V (kW (snd r)) <= b' /\
    (forall d it g t ph e s, In (Row (N:=Rnum) d it g t ph e s) l -> ph = 0%nat).
Proof.
  intros n. revert b. induction n as [|n IH]; intros b it prev k Hk Hb; cbn [tk_exact_phase]; cbv zeta.
  - exists [], b. rewrite app_nil_r. cbn. split; [auto|]. split; [auto|]. split; [auto|intros; contradiction].
  - assert (Hc : let c := (if tk_due maxiter resprint it then tk_exact_check (N:=Rnum) clk true V tol limit it k else (false, k)) in kW (snd c) = kW k /\
      exists l b', rows (kio (snd c)) = rows (kio k) ++ l /\ chain (norm2 V) b l b' /\ tucker_resid V (kW k) <= b' /\ (forall d it g t ph e s, In (Row (N:=Rnum) d it g t ph e s) l -> ph = 0%nat)).
    { cbv zeta. destruct (tk_due _ _ _).
      - split; [apply exact_check_kW|]. destruct (exact_check_rows it k) as (g & s & E). eexists _, (tucker_resid V (kW k)). split; [exact E|]. cbn. split; [auto|]. split; [apply Rle_refl|].
        intros d it0 g0 t ph e s0 [H|[]]. injection H; auto.
      - split; [reflexivity|]. exists [], b. rewrite app_nil_r. cbn. split; [auto|]. split; [auto|]. split; [auto|intros; contradiction]. }
    destruct (if tk_due maxiter resprint it then _ else _) as [stop k1]. cbv zeta in Hc. cbn [snd] in Hc. destruct Hc as (EW & l1 & b1 & E1 & C1 & B1 & P1).
    destruct stop; [cbn [snd]; rewrite EW; exists l1, b1; auto|].
    rewrite EW. fold o. pose proof (exact_any prev (kW k) (proj1 Hk)) as A. pose proof (exact_mono prev (kW k) Hk) as B.
    set (W' := hooi_aligned_upto svd V ranks prev o (kW k)) in *.
    destruct (settled _ _ _ _).
    + cbn [snd kW kio]. exists l1, b1. split; [auto|]. split; [auto|]. split; [lra|auto].
    + destruct (IH b1 (it + 1)%Z W' (mkTk W' (tucker_core V W') (kprev k1) (differences V W' prev) (kdn k1) (kio k1)) A) as (l2 & b2 & E2 & C2 & B2 & P2); [cbn [kW]; lra|].
      exists (l1 ++ l2), b2. split; [rewrite E2; cbn [kio]; rewrite E1, app_assoc; reflexivity|]. split; [eapply chain_app; eauto|]. split; [exact B2|].
      intros d it0 g t ph e s Hin. apply in_app_or in Hin as [Hin|Hin]; [eapply P1|eapply P2]; eauto.
Qed.

(** *** the approximate phase *)
Lemma approx_check_kW rank0 bench it first (k : tkst) : kW (snd (tk_approx_check (N:=Rnum) clk rank0 V tol limit maxiter bench it first k)) = kW k /\
  kdW (snd (tk_approx_check (N:=Rnum) clk rank0 V tol limit maxiter bench it first k)) = kdW k.
Proof.
  unfold tk_approx_check. destruct (timed _ _) as [dt x]. match goal with |- context [let '(_, _) := ?c in _] => destruct c as [f y] end.
  destruct (finished _ _ _ _ _) as [stop x']. split; reflexivity.
Qed.
Lemma approx_check_rows it first (k : tkst) : exists g s, rows (kio (snd (tk_approx_check (N:=Rnum) clk true V tol limit maxiter false it first k)))
  = rows (kio k) ++ [Row (N:=Rnum) (nth 0 (lens V) 0%nat) it g tol 1 (tucker_resid V (kW k)) s].
Proof.
  unfold tk_approx_check. destruct (timed _ (kio k)) as [dt x] eqn:Et. destruct (finished _ _ _ _ _) as [stop x'] eqn:Ef. cbn [snd kio].
  match type of Ef with finished _ ?g _ _ ?y = _ => assert (E := fin_rows clk tol limit g y) end. rewrite Ef in E. cbn [snd] in E. rewrite E.
  unfold timed in Et. injection Et as _ <-. cbn [written rows]. eauto.
Qed.
Lemma tk_step_around W0 (k : tkst) : around W0 (kW k) (kdW k) ->
  around W0 (kW (tk_step (N:=Rnum) svd V ranks W0 k)) (kdW (tk_step (N:=Rnum) svd V ranks W0 k)) /\
  norm2 (tucker_core V (kW k)) <= norm2 (tucker_core V (kW (tk_step (N:=Rnum) svd V ranks W0 k))) + 2 * norm2 V * sweep_loss o (kdW k) (kdW (tk_step (N:=Rnum) svd V ranks W0 k)) /\
  kio (tk_step (N:=Rnum) svd V ranks W0 k) = kio k.
Proof.
  intros H. unfold tk_step. pose proof (around_step W0 (kW k) (kdW k) H) as [A B]. destruct (tpp_sweep svd V ranks W0 (kW k, kdW k)) as [W' dW']. cbn [fst snd kW kdW kio] in *. auto.
Qed.
Notation AP := (tk_approx_loop (N:=Rnum) clk).
Lemma approx_orth rank0 bench ti W0 : forall n j it first (k : tkst), around W0 (kW k) (kdW k) ->
  orth (kW (snd (AP rank0 svd V ranks tol limit maxiter resprint bench ti W0 n j it first k))).
Proof.
  induction n as [|n IH]; intros j it first k Hk; cbn [tk_approx_loop]; [apply Hk|].
  destruct (negb (j =? 0)%nat && _ && _); [apply Hk|].
  assert (Hc : let c := (if tk_due maxiter resprint it || (j =? 0)%nat then tk_approx_check (N:=Rnum) clk rank0 V tol limit maxiter bench it first k else (false, first, k)) in kW (snd c) = kW k /\ kdW (snd c) = kdW k)
    by (cbv zeta; destruct (_ || _); [apply approx_check_kW|split; reflexivity]).
  destruct (if tk_due maxiter resprint it || (j =? 0)%nat then _ else _) as [[stop f1] k1]. cbv zeta in Hc. cbn [snd] in Hc. destruct Hc as [E1 E2].
  destruct stop; [cbn [snd]; rewrite E1; apply Hk|]. apply IH. apply tk_step_around. rewrite E1, E2. exact Hk.
Qed.
(** the residuals written by an approximate phase around W0, j sweeps done *)
Lemma approx_bound ti rmax W0 : 0 <= ti -> (forall m, (m < o)%nat -> (nth m ranks 0 <= rmax)%nat) ->
  let h := ti * sqrt (INR rmax) in let x := INR o * guard_loss o h in
  forall n j it first (k : tkst), around W0 (kW k) (kdW k) ->
  (j = 0%nat -> kW k = W0 /\ kdW k = zfacs V ranks) ->
  ((j = 0%nat \/ too_far (N:=Rnum) V (ti : Rnum) (kW k) (kdW k) = false) -> norm2 (tucker_core V W0) <= norm2 (tucker_core V (kW k)) + 2 * norm2 V * (INR j * x)) ->
  let r := AP true svd V ranks tol limit maxiter resprint false ti W0 n j it first k in
  exists l, rows (kio (snd r)) = rows (kio k) ++ l /\
    (forall d it' g t ph e s, In (Row (N:=Rnum) d it' g t ph e s) l -> ph = 1%nat /\ (it <= it')%Z /\
      e * e <= tucker_resid V W0 * tucker_resid V W0 + 4 * ((INR j + INR (Z.to_nat (it' - it))) * x) * (norm2 V * norm2 V)).
Proof.
  intros Hti Hmax h x. assert (X0 : 0 <= x).
  { apply Rmult_le_pos; [apply pos_INR|]. apply guard_loss_nonneg. apply Rmult_le_pos; auto. apply sqrt_pos. }
  induction n as [|n IH]; intros j it first k Hk H0 Hb; cbn [tk_approx_loop]; cbv zeta.
  - exists []. rewrite app_nil_r. split; [reflexivity|intros; contradiction].
  - destruct (negb (j =? 0)%nat && negb false && too_far V (ti : Rnum) (kW k) (kdW k)) eqn:El.
    { exists []. rewrite app_nil_r. split; [reflexivity|intros; contradiction]. }
    assert (Hin : j = 0%nat \/ too_far (N:=Rnum) V (ti : Rnum) (kW k) (kdW k) = false).
    { destruct (Nat.eqb_spec j 0) as [|Hj]; [auto|right]. cbn in El. exact El. }
    assert (Hsm : forall m, (m < o)%nat -> norm2 (fac (kdW k) m) <= h).
    { intros m Hm. destruct Hin as [E|E].
      - destruct (H0 E) as [_ ->]. rewrite (zfacs_norm V ranks) by auto. apply Rmult_le_pos; auto. apply sqrt_pos.
      - apply (guard_small V ranks Hr ti (kW k)); auto; apply Hk. }
    assert (Hbk := Hb Hin). clear Hb El.
    assert (Hc : let c := (if tk_due maxiter resprint it || (j =? 0)%nat then tk_approx_check (N:=Rnum) clk true V tol limit maxiter false it first k else (false, first, k)) in
      kW (snd c) = kW k /\ kdW (snd c) = kdW k /\ exists l, rows (kio (snd c)) = rows (kio k) ++ l /\
      (forall d it' g t ph e s, In (Row (N:=Rnum) d it' g t ph e s) l -> ph = 1%nat /\ it' = it /\ e = tucker_resid V (kW k))).
    { cbv zeta. destruct (_ || _).
      - destruct (approx_check_kW true false it first k) as [A B]. split; [exact A|]. split; [exact B|]. destruct (approx_check_rows it first k) as (g & s & E). eexists. split; [exact E|].
        intros d it' g0 t ph e s0 [H|[]]. injection H; intros; subst; auto.
      - split; [reflexivity|]. split; [reflexivity|]. exists []. rewrite app_nil_r. split; [reflexivity|intros; contradiction]. }
    destruct (if tk_due maxiter resprint it || (j =? 0)%nat then _ else _) as [[stop f1] k1]. cbv zeta in Hc. cbn [snd] in Hc. destruct Hc as (E1 & E2 & l1 & E3 & P1).
    assert (Hres : tucker_resid V (kW k) * tucker_resid V (kW k) <= tucker_resid V W0 * tucker_resid V W0 + 4 * (INR j * x) * (norm2 V * norm2 V)).
    { destruct Hk as (K1 & K2 & K3 & K4). apply (resid_of_loss V ranks HV W0 (kW k)); try apply K1; try apply K4; auto. apply Rmult_le_pos; [apply pos_INR|auto]. }
    assert (P1' : forall d it' g t ph e s, In (Row (N:=Rnum) d it' g t ph e s) l1 -> ph = 1%nat /\ (it <= it')%Z /\
      e * e <= tucker_resid V W0 * tucker_resid V W0 + 4 * ((INR j + INR (Z.to_nat (it' - it))) * x) * (norm2 V * norm2 V)).
    { intros d it' g t ph e s Hi. destruct (P1 _ _ _ _ _ _ _ Hi) as (-> & -> & ->). split; [auto|]. split; [lia|]. rewrite Z.sub_diag. cbn [Z.to_nat INR]. rewrite Rplus_0_r. exact Hres. }
    destruct stop; [cbn [snd]; exists l1; auto|].
    assert (Hk1 : around W0 (kW k1) (kdW k1)) by (rewrite E1, E2; exact Hk).
    destruct (tk_step_around W0 k1 Hk1) as (S1 & S2 & S3). set (k2 := tk_step svd V ranks W0 k1) in *.
    destruct (IH (S j) (it + 1)%Z f1 k2 S1) as (l2 & F1 & F2).
    + discriminate.
    + intros [|Ht]; [discriminate|].
      assert (Hsm2 : forall m, (m < o)%nat -> norm2 (fac (kdW k2) m) <= h) by (intros m Hm; apply (guard_small V ranks Hr ti (kW k2)); auto; apply S1).
      assert (HL : sweep_loss o (kdW k1) (kdW k2) <= x) by (apply loss_guard; auto; rewrite E2; auto).
      rewrite E1 in S2. rewrite S_INR. pose proof (norm2_pos V) as V0.
      set (v := norm2 V) in *. set (c0 := norm2 (tucker_core V W0)) in *. set (c1 := norm2 (tucker_core V (kW k))) in *. set (c2 := norm2 (tucker_core V (kW k2))) in *.
      set (q := sweep_loss o (kdW k1) (kdW k2)) in *. clearbody v c0 c1 c2 q. change (car Rnum) with R in *.
      assert (2 * v * q <= 2 * v * x) by (apply Rmult_le_compat_l; lra). lra.
    + exists (l1 ++ l2). split; [rewrite F1, S3, E3, app_assoc; reflexivity|]. intros d it' g t ph e s Hi. apply in_app_or in Hi as [Hi|Hi]; [eapply P1'; eauto|].
      destruct (F2 _ _ _ _ _ _ _ Hi) as (G1 & G2 & G3). split; [auto|]. split; [lia|].
      replace (INR j + INR (Z.to_nat (it' - it))) with (INR (S j) + INR (Z.to_nat (it' - (it + 1)))); [exact G3|].
      rewrite <- !plus_INR. f_equal. lia.
Qed.
Lemma approx_chain ti W0 : forall n j it first (k : tkst), around W0 (kW k) (kdW k) ->
  let r := AP true svd V ranks tol limit maxiter resprint false ti W0 n j it first k in
  forall b, tucker_resid V (kW k) <= b -> b <= norm2 V -> (j <> 0%nat -> b = norm2 V) ->
  exists l b', rows (kio (snd r)) = rows (kio k) ++ l /\ chain (norm2 V) b l b' /\ tucker_resid V (kW (snd r)) <= b' /\ b' <= norm2 V.
Proof.
  induction n as [|n IH]; intros j it first k Hk; cbn [tk_approx_loop]; cbv zeta; intros b Hb HB Hj.
  - exists [], b. rewrite app_nil_r. cbn. auto.
  - destruct (negb (j =? 0)%nat && negb false && too_far V (ti : Rnum) (kW k) (kdW k)) eqn:El.
    { exists [], b. rewrite app_nil_r. cbn. auto. }
    assert (Hc : let c := (if tk_due maxiter resprint it || (j =? 0)%nat then tk_approx_check (N:=Rnum) clk true V tol limit maxiter false it first k else (false, first, k)) in
      kW (snd c) = kW k /\ kdW (snd c) = kdW k /\ exists l b1, rows (kio (snd c)) = rows (kio k) ++ l /\ chain (norm2 V) b l b1 /\ b1 = norm2 V).
    { cbv zeta. destruct (Nat.eqb_spec j 0) as [Ej|Ej].
      - rewrite orb_true_r. destruct (approx_check_kW true false it first k) as [A B]. split; [exact A|]. split; [exact B|]. destruct (approx_check_rows it first k) as (g & s & E). eexists _, (norm2 V). split; [exact E|]. cbn. auto.
      - rewrite orb_false_r. destruct (tk_due _ _ _).
        + destruct (approx_check_kW true false it first k) as [A B]. split; [exact A|]. split; [exact B|]. destruct (approx_check_rows it first k) as (g & s & E). eexists _, (norm2 V). split; [exact E|]. cbn. auto.
        + split; [reflexivity|]. split; [reflexivity|]. exists [], b. rewrite app_nil_r. cbn. auto. }
    destruct (if tk_due maxiter resprint it || (j =? 0)%nat then _ else _) as [[stop f1] k1]. cbv zeta in Hc. cbn [snd] in Hc. destruct Hc as (E1 & E2 & l1 & b1 & E3 & C1 & B1).
    destruct stop.
    { cbn [snd]. exists l1, b1. rewrite E1, B1 in *. split; [auto|]. split; [auto|]. split; [apply resid_top; apply Hk|apply Rle_refl]. }
    assert (Hk1 : around W0 (kW k1) (kdW k1)) by (rewrite E1, E2; exact Hk).
    destruct (tk_step_around W0 k1 Hk1) as (S1 & S2 & S3). set (k2 := tk_step svd V ranks W0 k1) in *.
    destruct (IH (S j) (it + 1)%Z f1 k2 S1 b1) as (l2 & b2 & F1 & F2 & F3 & F4); [rewrite B1; apply resid_top; apply S1|rewrite B1; apply Rle_refl|auto|].
    exists (l1 ++ l2), b2. split; [rewrite F1, S3, E3, app_assoc; reflexivity|]. split; [eapply chain_app; eauto|]. auto.
Qed.
Lemma approx_phase_orth rank0 bench ti it (k : tkst) : orth (kW k) -> orth (kW (snd (tk_approx_phase (N:=Rnum) clk rank0 svd V ranks tol limit maxiter resprint bench ti it k))).
Proof.
  intros Hk. unfold tk_approx_phase. destruct (it <=? maxiter)%Z; [|exact Hk]. destruct (negb bench && _); [exact Hk|]. apply approx_orth. apply around_start. exact Hk.
Qed.
Lemma driver_orth rank0 bench : forall n ti it (k : tkst) it' q, orth (kW k) ->
  tk_driver_loop (N:=Rnum) clk rank0 svd V ranks tol limit maxiter resprint bench n ti it k = Some (it', q) -> orth (kW q).
Proof.
  induction n as [|n IH]; intros ti it k it' q Hk; cbn [tk_driver_loop].
  - destruct (_ && _); [discriminate|]. intros E. injection E as <- <-. auto.
  - destruct (_ && _); [|intros E; injection E as <- <-; auto].
    assert (H1 : orth (kW (snd (if bench then (it, k) else EX rank0 svd V ranks tol limit maxiter resprint ti (Z.to_nat (maxiter + 1 - it)) it (zfacs V ranks) k)))) by (destruct bench; [exact Hk|apply exact_orth; exact Hk]).
    destruct (if bench then _ else _) as [it1 k1]. cbn [snd] in H1.
    assert (H2 := approx_phase_orth rank0 bench ti it1 k1 H1). destruct (tk_approx_phase _ _ _ _ _ _ _ _ _ _ _ _ _) as [it2 k2]. cbn [snd] in H2. apply IH. exact H2.
Qed.
Lemma driver_chain : forall n ti it (k : tkst) it' q b, orth (kW k) -> tucker_resid V (kW k) <= b -> b <= norm2 V ->
  tk_driver_loop (N:=Rnum) clk true svd V ranks tol limit maxiter resprint false n ti it k = Some (it', q) ->
  exists l b', rows (kio q) = rows (kio k) ++ l /\ chain (norm2 V) b l b' /\ tucker_resid V (kW q) <= b' /\ b' <= norm2 V.
Proof.
  induction n as [|n IH]; intros ti it k it' q b Hk Hb HB; cbn [tk_driver_loop].
  - destruct (_ && _); [discriminate|]. intros E. injection E as <- <-. exists [], b. rewrite app_nil_r. cbn. auto.
  - destruct (_ && _); [|intros E; injection E as <- <-; exists [], b; rewrite app_nil_r; cbn; auto].
    destruct (exact_orth true ti (Z.to_nat (maxiter + 1 - it)) it (zfacs V ranks) k Hk) as [H1 _].
    destruct (exact_chain ti b (Z.to_nat (maxiter + 1 - it)) it (zfacs V ranks) k Hk Hb) as (l1 & b1 & E1 & C1 & R1 & _).
    destruct (chain_all _ _ _ _ HB C1) as [HB1 _].
    destruct (EX true svd V ranks tol limit maxiter resprint ti (Z.to_nat (maxiter + 1 - it)) it (zfacs V ranks) k) as [it1 k1]. cbn [snd] in *.
    assert (Ha : let r := tk_approx_phase (N:=Rnum) clk true svd V ranks tol limit maxiter resprint false ti it1 k1 in
      exists l b', rows (kio (snd r)) = rows (kio k1) ++ l /\ chain (norm2 V) b1 l b' /\ tucker_resid V (kW (snd r)) <= b' /\ b' <= norm2 V).
    { cbv zeta. unfold tk_approx_phase. destruct (it1 <=? maxiter)%Z; [|exists [], b1; rewrite app_nil_r; cbn; auto].
      destruct (negb false && _); [exists [], b1; rewrite app_nil_r; cbn; auto|].
      apply (approx_chain ti (kW k1) (Z.to_nat (maxiter + 1 - it1)) 0 it1 n0 (mkTk (kW k1) (kcore k1) (kprev k1) (zfacs V ranks) (kdn k1) (kio k1)) (around_start (kW k1) H1) b1); auto. congruence. }
    assert (H2 := approx_phase_orth true false ti it1 k1 H1).
    destruct (tk_approx_phase _ _ _ _ _ _ _ _ _ _ _ _ _) as [it2 k2]. cbv zeta in Ha. cbn [snd] in Ha, H2. destruct Ha as (l2 & b2 & E2 & C2 & R2 & B2).
    intros E. destruct (IH _ _ _ _ _ b2 H2 R2 B2 E) as (l3 & b3 & E3 & C3 & R3 & B3).
    exists (l1 ++ l2 ++ l3), b3. split; [rewrite E3, E2, E1, !app_assoc; reflexivity|]. split; [eapply chain_app; [exact C1|eapply chain_app; eauto]|]. auto.
Qed.
End R.
