(** Over the reals: factors that fit better than zero; the phases of alsCP_PP *)
From Coq Require Import List ZArith QArith Lia Bool Arith Reals Lra.
From Verif Require Import Base Num NumR Tensor Spec Spec2 Spec3 Spec10 Spec11 Spec12 Spec18 Spec19 Spec20 Spec22 Spec25 MCommon MCP PBase PTensor PSum PMttkrp PMat PMatAlg PResid PGrad PRank PNormalize PALS PMono PMono2 PPPDriver PCPD PDrivers2 PTuckMono
  PConv PConv2 PConv3 PConv4 PConv5 PErr PErr2 PPP PPPSweep PApprox PApprox2 PApprox3 PDriverRef.
Import ListNotations.
Local Close Scope Q_scope.
Local Open Scope R_scope.
Local Notation RL := Rnum_ring.
Local Notation bs := (bigsum (N:=Rnum)).
Local Notation bp := (bigprod (N:=Rnum)).

Lemma sumsq_zero (T : tensor Rnum) x : sumsq T = 0 -> In x (all_idx (lens T)) -> at_ T x = 0.
Proof.
  intros E Hx. unfold sumsq in E. apply in_split in Hx. destruct Hx as (a & b & Ex). rewrite Ex in E.
  rewrite bs_app in E. change (bs (x :: b) ?f) with (at_ T x * at_ T x + bs b f) in E.
  assert (P1 : 0 <= bs a (fun y => at_ T y * at_ T y)) by (apply bigsum_nonneg; intros; apply Rle_0_sqr).
  assert (P2 : 0 <= bs b (fun y => at_ T y * at_ T y)) by (apply bigsum_nonneg; intros; apply Rle_0_sqr).
  cbn in E. cbn in P1, P2. pose proof (Rle_0_sqr (at_ T x)) as P3. unfold Rsqr in P3. set (t := at_ T x) in *.
  match type of P1 with 0 <= ?u => set (u1 := u) in * end. match type of P2 with 0 <= ?u => set (u2 := u) in * end. change (car Rnum) with R in *. clearbody t u1 u2.
  assert (t * t = 0) by lra. apply Rsqr_0_uniq. exact H.
Qed.
Lemma norm2_zero_el (A : tensor Rnum) r k i j : is_mat A r k -> norm2 A = 0 -> (i < r)%nat -> (j < k)%nat -> el A i j = 0.
Proof.
  intros [HL HA] E Hi Hj. rewrite norm2_sumsq in E by auto. unfold el. apply sumsq_zero.
  - apply sqrt_eq_0; [apply sumsq_nonneg|exact E].
  - apply all_idx_in. rewrite HL. apply inb2; auto.
Qed.
Lemma norm2_sq (T : tensor Rnum) : wf T -> norm2 T * norm2 T = sumsq T.
Proof. intros H. rewrite norm2_sumsq by auto. apply sqrt_sqrt. apply sumsq_nonneg. Qed.
(** with a zero factor the objective is at least that of the zero tensor *)
Lemma zero_factor (V : tensor Rnum) W rk (lambda : R) m : factors_ok V W rk -> 0 <= lambda -> (m < order V)%nat -> norm2 (fac W m) = 0 ->
  norm2 V * norm2 V <= objective (lambda : Rnum) V W rk.
Proof.
  intros HW Hl Hm Hz. rewrite objective_split. rewrite norm2_sq by apply HW.
  assert (E : residual2 V W rk = sumsq V).
  { unfold residual2, sumsq. apply bs_ext. intros x Hx. apply all_idx_in in Hx.
    assert (C : cp_at W rk x = 0).
    { unfold cp_at. apply (bigsum_zero RL). intros r Hr. apply in_seq in Hr. destruct HW as (_ & HL & HM). 
      assert (Hin : In m (seq 0 (length W))) by (apply in_seq; lia). apply in_split in Hin. destruct Hin as (a & b & Es). rewrite Es, (bigprod_app RL).
      rewrite bigprod_cons. rewrite (norm2_zero_el (fac W m) _ rk (nth m x 0%nat) r (HM m Hm) Hz); [|apply inb_nth; auto|lia].
      match goal with |- nmul ?u (nmul _ ?w) = _ => generalize u w end. intros u w. change (u * (0 * w) = 0). ring. }
    rewrite C. change n0 with 0. generalize (at_ V x). intros v. change ((v - 0) * (v - 0) = v * v). ring. }
  rewrite E. match goal with |- ?a <= ?a + ?b => assert (0 <= b) end.
  { apply Rmult_le_pos; auto. apply bigsum_nonneg. intros. apply fro2_nonneg. }
  match goal with H : 0 <= ?b |- ?a <= ?a + ?b => set (bb := b) in *; set (aa := a) in * end. change (car Rnum) with R in *. clearbody aa bb. lra.
Qed.

Lemma better_lens (lambda : R) (V : tensor Rnum) W rk : wf V -> 0 <= lambda -> better_than_zero lambda V W rk -> forall n, (n < order V)%nat -> (0 < nth n (lens V) 0)%nat.
Proof.
  intros HV Hl Hb n Hn. destruct (nth n (lens V) 0%nat) eqn:E; [|lia]. exfalso. unfold better_than_zero in Hb. rewrite norm2_sq in Hb by auto.
  pose proof (objective_nonneg lambda V W rk Hl) as P. unfold sumsq in Hb.
  assert (E0 : all_idx (lens V) = []). { destruct (all_idx (lens V)) as [|x l] eqn:Ex; [reflexivity|]. exfalso.
    assert (Hx : In x (all_idx (lens V))) by (rewrite Ex; left; reflexivity). apply all_idx_in in Hx. pose proof (inb_nth _ _ n Hx Hn) as K. rewrite E in K. lia. }
  rewrite E0 in Hb. change (bs [] _) with 0 in Hb. change (car Rnum) with R in *. lra.
Qed.

Section Phases.
Context (LA : lapack Rnum) (V : tensor Rnum) (rk : nat) (lambda : R).
Hypothesis Hsh : svd_shaped (svd LA).
Hypothesis Hsv : svd_works (svd LA) rk.
Hypothesis Hl : 0 < lambda.
Notation solve := (pinv_solve (svd LA) rk).
Notation obj W := (objective (lambda : Rnum) V W rk).
Lemma works_valid W n : factors_ok V W rk -> (n < order V)%nat -> (0 < nth n (lens V) 0)%nat -> svd_valid (svd LA) (als_lhs (lambda : Rnum) W rk n) rk.
Proof. intros HW Hn H0. apply Hsv; [apply lhs_mat|apply lhs_sym|eapply lhs_posdef; eauto]. Qed.
Lemma exact_upto F W n : zero_mats V F rk -> factors_ok V W rk -> (forall n, (n < order V)%nat -> (0 < nth n (lens V) 0)%nat) -> (n <= order V)%nat ->
  obj (als_upto solve (lambda : Rnum) V F rk n W) <= obj W.
Proof.
  intros HF HW Hlen. induction n as [|n IH]; intros Hn; [apply Rle_refl|]. eapply Rle_trans; [|apply IH; lia]. rewrite upto_S.
  assert (HU : factors_ok V (als_upto solve (lambda : Rnum) V F rk n W) rk) by (apply (upto_factors RL LA V rk Hsh); [auto|lia]).
  unfold als_update. assert (Er : als_rhs V F (als_upto solve (lambda : Rnum) V F rk n W) rk n = mttkrp V (als_upto solve (lambda : Rnum) V F rk n W) n rk).
  { unfold als_rhs. apply (madd_zero_r RL _ _ (nth n (lens V) 0%nat) rk); [apply mttkrp_mat|]. intros; apply HF; auto. }
  rewrite Er. destruct (pinv_solves RL LA Hsh (mttkrp V (als_upto solve (lambda : Rnum) V F rk n W) n rk) (als_lhs (lambda : Rnum) (als_upto solve (lambda : Rnum) V F rk n W) rk n) (nth n (lens V) 0%nat) rk) as [HX EX].
  - apply mttkrp_mat.
  - apply lhs_mat.
  - apply (valid_solvable _ V); auto. apply works_valid; auto.
  - apply (update_decrease V _ rk n lambda _ HU ltac:(lia) ltac:(lra) HX EX).
Qed.
Lemma better_nonzero W : factors_ok V W rk -> better_than_zero lambda V W rk -> forall m, (m < order V)%nat -> norm2 (fac W m) <> 0.
Proof.
  intros HW Hb m Hm Hz. pose proof (zero_factor V W rk lambda m HW ltac:(lra) Hm Hz) as K. unfold better_than_zero in Hb.
  set (x := obj W) in *. set (y := norm2 V * norm2 V) in *. change (car Rnum) with R in *. clearbody x y. lra.
Qed.
(** one exact sweep from factors that fit better than zero *)
Lemma exact_one F W : zero_mats V F rk -> factors_ok V W rk -> (1 <= order V)%nat -> better_than_zero lambda V W rk ->
  let W' := rescaled (als_sweep solve (lambda : Rnum) V F rk W) in
  factors_ok V W' rk /\ obj W' <= obj W /\ better_than_zero lambda V W' rk /\
  (forall m, (m < order V)%nat -> norm2 (fac (als_sweep solve (lambda : Rnum) V F rk W) m) <> 0) /\
  exists a, 0 < a /\ forall m, (m < order V)%nat -> norm2 (fac W' m) = a.
Proof.
  intros HF HW H1 Hb W'. set (U := als_sweep solve (lambda : Rnum) V F rk W) in *.
  assert (HU : factors_ok V U rk) by (apply (sweep_factors RL LA V rk Hsh); auto).
  assert (HV : wf V) by apply HW. pose proof (better_lens lambda V W rk HV ltac:(lra) Hb) as Hlen.
  assert (LU : obj U <= obj W) by (apply (exact_upto F W (order V)); auto).
  assert (BU : better_than_zero lambda V U rk) by (unfold better_than_zero in *; eapply Rle_lt_trans; eauto).
  pose proof (better_nonzero U HU BU) as NZ.
  assert (LW : obj W' <= obj U) by (apply rescaled_objective; auto; lra).
  split; [apply (rescaled_factors LA); auto|]. split; [eapply Rle_trans; eauto|]. split; [unfold better_than_zero in *; eapply Rle_lt_trans; eauto|]. split; [exact NZ|].
  destruct HU as (_ & HUL & HUM).
  assert (HQ : forall q, (q < length U)%nat -> is_mat (fac U q) (nrow (fac U q)) rk /\ norm2 (fac U q) <> 0).
  { intros q Hq. rewrite HUL in Hq. split; [|auto]. rewrite (is_mat_nrow _ _ _ (HUM q Hq)). auto. }
  set (g := Rroot (length U) (bp U norm2)). exists g.
  assert (HN : forall m, (m < order V)%nat -> norm2 (fac W' m) = g).
  { intros m Hm. apply (rescaled_norms U rk m ltac:(lia) HQ ltac:(lia)). }
  split; [|exact HN]. apply (rescaled_norms U rk 0 ltac:(lia) HQ ltac:(lia)).
Qed.
Theorem better_along F W : zero_mats V F rk -> factors_ok V W rk -> (1 <= order V)%nat -> better_than_zero lambda V W rk ->
  factors_stay_nonzero (svd LA) lambda V F rk W /\ svd_valid_along (svd LA) lambda V F rk W /\ forall k, obj (als_factors (svd LA) lambda V F rk W k) <= obj W.
Proof.
  intros HF HW H1 Hb.
  assert (K : forall k, let Wk := als_factors (svd LA) lambda V F rk W k in factors_ok V Wk rk /\ better_than_zero lambda V Wk rk /\ obj Wk <= obj W).
  { induction k as [|k IH]; [split; [exact HW|split; [exact Hb|apply Rle_refl]]|]. cbv zeta in *. destruct IH as (I1 & I2 & I3).
    pose proof (exact_one F _ HF I1 H1 I2) as (J1 & J2 & J3 & _). split; [exact J1|]. split; [exact J3|]. eapply Rle_trans; [exact J2|exact I3]. }
  split; [|split].
  - intros k m Hm. destruct (K k) as (I1 & I2 & I3). apply (exact_one F _ HF I1 H1 I2). exact Hm.
  - intros k n Hn. destruct (K k) as (I1 & I2 & I3). apply works_valid; auto; [apply (upto_factors RL LA V rk Hsh); auto; lia|].
    apply (better_lens lambda V W rk); auto; [apply HW|lra].
  - intros k. apply K.
Qed.
End Phases.
