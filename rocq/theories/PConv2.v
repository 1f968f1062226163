(** The trace of the system matrix, the effect of Normalize on the objective, and counting checks *)
From Coq Require Import List ZArith Lia Bool Arith Reals Lra Permutation.
From Verif Require Import Base Num NumR Tensor Spec Spec3 Spec10 Spec11 Spec18 MCommon PBase PTensor PSum PMttkrp PMat PMatAlg PResid PGrad PRank PNormalize PALS PMono PMono2 PTuckMono PConv.
Import ListNotations.
Local Open Scope R_scope.
Local Notation RL := Rnum_ring.
Local Notation bs := (bigsum (N:=Rnum)).
Local Notation bp := (bigprod (N:=Rnum)).

Ltac rring := match goal with |- ?l = ?r => change (@eq R l r) end; ring.
Lemma bp_cons {X} (a : X) l (f : X -> R) : bp (a :: l) f = f a * bp l f.
Proof. reflexivity. Qed.
Lemma bp_nonneg {X} (l : list X) (f : X -> R) : (forall x, In x l -> 0 <= f x) -> 0 <= bp l f.
Proof.
  induction l as [|a l IH]; intros H; [cbn; lra|]. rewrite bp_cons. apply Rmult_le_pos; [apply H; left; auto|apply IH; intros; apply H; right; auto].
Qed.
Lemma bs_ge {X} (l : list X) (f : X -> R) x : (forall x, In x l -> 0 <= f x) -> In x l -> f x <= bs l f.
Proof.
  induction l as [|a l IH]; intros H Hx; [destruct Hx|]. rewrite bs_cons. assert (0 <= f a) by (apply H; left; auto).
  assert (0 <= bs l f) by (apply bigsum_nonneg; intros; apply H; right; auto).
  destruct Hx as [<-|Hx]; [lra|]. assert (f x <= bs l f) by (apply IH; auto; intros; apply H; right; auto). lra.
Qed.
(** sum of products <= product of sums *)
Lemma sum_prod_le {X Y} (ms : list X) (ls : list Y) (a : X -> Y -> R) : ms <> [] -> (forall m l, In m ms -> In l ls -> 0 <= a m l) ->
  bs ls (fun l => bp ms (fun m => a m l)) <= bp ms (fun m => bs ls (a m)).
Proof.
  induction ms as [|m ms IH]; intros Hne H; [congruence|]. rewrite bp_cons.
  destruct ms as [|m' ms].
  { cbn [bigprod]. change (bp [] ?f) with 1. apply Req_le. rewrite Rmult_1_r. apply bs_ext. intros l _. rewrite bp_cons. change (bp [] ?f) with 1. ring. }
  set (t := m' :: ms) in *. assert (Hm : forall l, In l ls -> 0 <= a m l) by (intros; apply H; auto; left; auto).
  assert (Hp : forall l, In l ls -> 0 <= bp t (fun m => a m l)) by (intros; apply bp_nonneg; intros; apply H; auto; right; auto).
  apply Rle_trans with (bs ls (fun l => bs ls (a m) * bp t (fun m => a m l))).
  - apply bs_le. intros l Hl. rewrite bp_cons. apply Rmult_le_compat_r; [apply Hp; auto|]. apply bs_ge; auto.
  - rewrite bs_mul_l. apply Rmult_le_compat_l; [apply bigsum_nonneg; auto|]. apply IH; [discriminate|]. intros; apply H; auto. right; auto.
Qed.
Lemma bp_le_pow {X} (l : list X) (f : X -> R) B : 0 <= B -> (forall x, In x l -> 0 <= f x <= B) -> bp l f <= B ^ length l.
Proof.
  intros HB. induction l as [|a l IH]; intros H; [cbn; lra|]. rewrite bp_cons. cbn [length pow]. apply Rmult_le_compat; try apply H; try (left; auto; fail).
  - apply bp_nonneg. intros; apply H; right; auto.
  - apply IH. intros; apply H; right; auto.
Qed.
Lemma fro2_nonneg (A : tensor Rnum) : 0 <= fro2 A.
Proof. pose proof (minner_pos Rnum_ord (nrow A) (ncol A) A) as P. apply Rnle in P. exact P. Qed.
Lemma fro2_norm (A : tensor Rnum) r c : is_mat A r c -> norm2 A * norm2 A = fro2 A.
Proof.
  intros HA. pose proof HA as [HL HW]. rewrite norm2_sumsq by auto. rewrite sqrt_sqrt by apply sumsq_nonneg. unfold sumsq, fro2, minner. rewrite HL.
  rewrite (is_mat_nrow _ _ _ HA), (is_mat_ncol _ _ _ HA). rewrite (bigsum_swap RL). cbn [all_idx]. rewrite (bigsum_flat_map RL), (bigsum_flat_map RL).
  rewrite bs_cons. change (bs [] ?g) with 0. rewrite Rplus_0_r, bigsum_map. apply bs_ext. intros j _. rewrite bigsum_map. reflexivity.
Qed.
Lemma others_length n o : (n < o)%nat -> length (others n o) = (o - 1)%nat.
Proof. intros Hn. pose proof (Permutation_length (others_perm n o Hn)) as E. rewrite seq_length in E. cbn in E. lia. Qed.
Lemma trace_le (V : tensor Rnum) W rk n (lambda B : R) : factors_ok V W rk -> (n < order V)%nat -> (2 <= order V)%nat -> 0 <= B ->
  (forall m, (m < order V)%nat -> fro2 (fac W m) <= B) -> lhs_trace W rk n lambda <= INR rk * lambda + B ^ (order V - 1).
Proof.
  intros HW Hn H2 HB H. assert (HL : length W = order V) by apply HW. unfold lhs_trace.
  assert (E : bs (seq 0 rk) (fun l => el (als_lhs (lambda : Rnum) W rk n) l l) = bs (seq 0 rk) (fun l => hgram_at W n l l) + INR rk * lambda).
  { transitivity (bs (seq 0 rk) (fun l => hgram_at W n l l + lambda)).
    - apply bs_ext. intros l Hl. apply in_seq in Hl. rewrite (el_lhs W rk n lambda) by lia. rewrite Nat.eqb_refl. rring.
    - clear. generalize 0%nat. induction rk as [|k IH]; intros a; [cbn; lra|]. cbn [seq]. rewrite !bs_cons, IH, S_INR. rring. }
  rewrite E. enough (bs (seq 0 rk) (fun l => hgram_at W n l l) <= B ^ (order V - 1)) by lra.
  eapply Rle_trans; [apply (sum_prod_le (others n (length W)) (seq 0 rk) (fun m l => gram_at (fac W m) l l))|].
  - rewrite HL. intros E0. apply (f_equal (@length nat)) in E0. rewrite others_length in E0 by auto. cbn in E0. lia.
  - intros m l _ _. apply bigsum_nonneg. intros i _. apply Rle_0_sqr.
  - rewrite HL. rewrite <- (others_length n (order V) Hn). apply bp_le_pow; auto. intros m Hm. apply others_in in Hm.
    assert (HM : is_mat (fac W m) (nth m (lens V) 0%nat) rk) by (apply HW; lia).
    assert (EF : bs (seq 0 rk) (fun l => gram_at (fac W m) l l) = fro2 (fac W m)).
    { unfold fro2, minner, gram_at. rewrite (bigsum_swap RL). rewrite (is_mat_ncol _ _ _ HM). reflexivity. }
    rewrite EF. split; [apply fro2_nonneg|apply H; lia].
Qed.
(** the objective bounds the factors *)
Lemma residual2_nonneg (V : tensor Rnum) W rk : 0 <= residual2 V W rk.
Proof. apply bigsum_nonneg. intros x _. apply Rle_0_sqr. Qed.
Lemma objective_split (lambda : R) (V : tensor Rnum) W rk :
  objective (lambda : Rnum) V W rk = residual2 V W rk + lambda * bs (seq 0 (length W)) (fun m => fro2 (fac W m)).
Proof. reflexivity. Qed.
Lemma objective_nonneg (lambda : R) (V : tensor Rnum) W rk : 0 <= lambda -> 0 <= objective (lambda : Rnum) V W rk.
Proof.
  intros Hl. rewrite objective_split. apply Rplus_le_le_0_compat; [apply residual2_nonneg|]. apply Rmult_le_pos; auto. apply bigsum_nonneg. intros; apply fro2_nonneg.
Qed.
Lemma div_cancel (l x : R) : 0 < l -> l * (x / l) = x.
Proof. intros. field. lra. Qed.
Lemma factor_bound (lambda : R) (V : tensor Rnum) (W : list (tensor Rnum)) rk m : 0 < lambda -> (m < length W)%nat -> fro2 (fac W m) <= objective (lambda : Rnum) V W rk / lambda.
Proof.
  intros Hl Hm. apply Rmult_le_reg_l with lambda; auto. rewrite div_cancel by auto.
  rewrite objective_split. pose proof (residual2_nonneg V W rk).
  assert (fro2 (fac W m) <= bs (seq 0 (length W)) (fun m => fro2 (fac W m))).
  { apply (bs_ge (seq 0 (length W)) (fun m => fro2 (fac W m)) m); [intros; apply fro2_nonneg|apply in_seq; lia]. }
  assert (lambda * fro2 (fac W m) <= lambda * bs (seq 0 (length W)) (fun m => fro2 (fac W m))) by (apply Rmult_le_compat_l; lra). cbn in *. lra.
Qed.

Lemma const_sum (c : R) k : forall a, bs (seq a k) (fun _ => c) = INR k * c.
Proof. induction k as [|k IH]; intros a; [cbn; lra|]. cbn [seq]. rewrite bs_cons, IH, S_INR. rring. Qed.
(** *** arithmetic and geometric mean *)
Lemma amgm {X} (l : list X) (a : X -> R) (g : R) : 0 < g -> (forall x, In x l -> 0 < a x) -> g ^ length l = bp l a -> INR (length l) * g <= bs l a.
Proof.
  intros Hg Ha E.
  assert (H1 : forall l, (forall x, In x l -> 0 < a x) -> 0 < bp l a /\ INR (length l) * g + g * ln (bp l a / g ^ length l) <= bs l a).
  { clear l Ha E. induction l as [|x l IH]; intros Ha.
    - split; [cbn; lra|]. cbn [length INR pow]. change (bp [] a) with 1. unfold Rdiv. rewrite Rinv_1, Rmult_1_r, ln_1. cbn. lra.
    - destruct IH as [P IH]; [intros; apply Ha; right; auto|]. assert (Px : 0 < a x) by (apply Ha; left; auto).
      rewrite bp_cons, bs_cons. split; [apply Rmult_lt_0_compat; auto|]. cbn [length pow]. rewrite S_INR.
      assert (Hp : 0 < g ^ length l) by (apply pow_lt; auto).
      replace (a x * bp l a / (g * g ^ length l)) with (a x / g * (bp l a / g ^ length l)) by (field; lra).
      rewrite ln_mult by (apply Rdiv_lt_0_compat; auto).
      pose proof (exp_ineq1_le (ln (a x / g))) as X1. rewrite exp_ln in X1 by (apply Rdiv_lt_0_compat; auto).
      assert (X2 : g * (1 + ln (a x / g)) <= g * (a x / g)) by (apply Rmult_le_compat_l; lra).
      replace (g * (a x / g)) with (a x) in X2 by (field; lra). lra. }
  destruct (H1 l Ha) as [P H]. rewrite E in H. unfold Rdiv in H. rewrite Rinv_r, ln_1 in H by lra. lra.
Qed.
Lemma bp_sq {X} (l : list X) (a : X -> R) : bp l (fun x => a x * a x) = bp l a * bp l a.
Proof. induction l as [|x l IH]; [cbn; lra|]. rewrite !bp_cons, IH. rring. Qed.
(** Normalize never increases the objective *)
Theorem rescaled_objective (lambda : R) (V : tensor Rnum) W rk : 0 <= lambda -> factors_ok V W rk -> (1 <= order V)%nat ->
  (forall m, (m < order V)%nat -> norm2 (fac W m) <> 0) ->
  objective (lambda : Rnum) V (rescaled W) rk <= objective (lambda : Rnum) V W rk.
Proof.
  intros Hl HW Ho Hn. assert (HL : length W = order V) by apply HW.
  assert (HM : forall m, (m < length W)%nat -> exists r, is_mat (fac W m) r rk) by (intros m Hm; eexists; apply HW; lia).
  assert (Hz : forall m, (m < length W)%nat -> norm2 (fac W m) <> 0) by (intros; apply Hn; lia).
  destruct (Normalize_R W rk ltac:(lia) HM Hz) as (W' & E1 & _ & _ & _ & E4).
  rewrite HL in E1. rewrite (Normalize_rescaled Rnum_ring V rk W HW) in E1. injection E1 as <-.
  rewrite !objective_split, (rescaled_residual V W rk) by auto. apply Rplus_le_compat_l, Rmult_le_compat_l; auto.
  pose proof (rescaled_factors V W rk HW) as HW'. assert (HL' : length (rescaled W) = order V) by apply HW'.
  set (g := Rroot (length W) (bp (seq 0 (length W)) (fun m => norm2 (fac W m)))) in *.
  assert (Gp : g ^ length W = bp (seq 0 (length W)) (fun m => norm2 (fac W m))) by (apply (g_pow W); auto; lia).
  assert (G0 : 0 < g).
  { assert (P : 0 < bp (seq 0 (length W)) (fun m => norm2 (fac W m))) by (apply (P_pos W); auto; lia).
    pose proof (g_pos W) as G1. fold g in G1. destruct (Req_dec g 0) as [Z|]; [|lra]. rewrite Z, pow_i in Gp by lia. lra. }
  apply Rle_trans with (INR (length (seq 0 (length W))) * (g * g)).
  - apply Req_le. rewrite HL'. rewrite HL. rewrite seq_length.
    transitivity (bs (seq 0 (order V)) (fun _ => g * g)).
    + apply bs_ext. intros m Hm. apply in_seq in Hm. rewrite <- (fro2_norm _ (nth m (lens V) 0%nat) rk) by (apply HW'; lia). rewrite E4 by lia. reflexivity.
    + apply const_sum.
  - apply amgm.
    + apply Rmult_lt_0_compat; auto.
    + intros m Hm. apply in_seq in Hm. rewrite <- (fro2_norm _ (nth m (lens V) 0%nat) rk) by (apply HW; lia).
      pose proof (norm2_nonneg (fac W m)). specialize (Hz m ltac:(lia)). apply Rmult_lt_0_compat; lra.
    + rewrite seq_length, Rpow_mult_distr, Gp. rewrite <- bp_sq. apply (bigprod_ext (N:=Rnum)). intros m Hm. apply in_seq in Hm.
      apply (fro2_norm _ (nth m (lens V) 0%nat) rk). apply HW. lia.
Qed.

(** *** counting the checks at which a large gradient is seen *)
Section Count.
Context (f : nat -> R) (w : nat) (T tol : R) (gn : nat -> R) (chk : nat -> bool).
Hypothesis Hf0 : forall i, 0 <= f i.
Hypothesis HT : 0 <= T.
Lemma telescope k : bs (seq 0 k) (fun i => f i - f (i + w)%nat) = bs (seq 0 w) (fun i => f i) - bs (seq k w) (fun i => f i).
Proof.
  induction k as [|k IH]; [cbn [seq]; change (bs [] ?g) with 0; rring|]. rewrite seq_S, (bigsum_app RL). cbn [plus].
  change (bs (seq 0 k) (fun i => f i - f (i + w)%nat) + bs [k] (fun i => f i - f (i + w)%nat) = bs (seq 0 w) (fun i => f i) - bs (seq (S k) w) (fun i => f i)).
  rewrite IH. rewrite bs_cons. change (bs [] ?g) with 0.
  assert (E : bs (seq k (S w)) (fun i => f i) = f k + bs (seq (S k) w) (fun i => f i)) by reflexivity.
  rewrite seq_S, (bigsum_app RL) in E. change (bs (seq k w) (fun i => f i) + bs [(k + w)%nat] (fun i => f i) = f k + bs (seq (S k) w) (fun i => f i)) in E.
  rewrite bs_cons in E. change (bs [] ?g) with 0 in E. lra.
Qed.
Hypothesis Hmono : forall i j, (i <= j)%nat -> f j <= f i.
Hypothesis Hgn : forall i, gn (i + w)%nat * gn (i + w)%nat <= T * (f i - f (i + w)%nat).
Lemma few_large k : 0 < tol -> (forall i, (w <= i < k)%nat -> chk i = true -> tol <= gn i) ->
  INR (length (filter chk (seq w (k - w)))) * (tol * tol) <= T * (INR w * f 0%nat).
Proof.
  intros Ht H. set (k' := (k - w)%nat).
  assert (A : INR (length (filter chk (seq w k'))) * (tol * tol) <= T * bs (seq 0 k') (fun i => f i - f (i + w)%nat)).
  { rewrite <- bs_mul_l. assert (Hk : (w + k' <= k \/ k' = 0)%nat) by lia. clearbody k'. induction k' as [|j IH]; [cbn; lra|].
    rewrite !seq_S, filter_app, app_length, plus_INR, (bigsum_app RL). cbn [filter plus].
    change (INR (length (filter chk (seq w j))) + INR (length (if chk (w + j)%nat then [(w + j)%nat] else [])) ) with
      (INR (length (filter chk (seq w j))) + INR (length (if chk (w + j)%nat then [(w + j)%nat] else []))).
    match goal with |- _ <= nadd ?a ?b => change (nadd a b) with (a + b) end. rewrite bs_cons. change (bs [] ?g) with 0.
    specialize (IH ltac:(lia)). assert (X : INR (length (if chk (w + j)%nat then [(w + j)%nat] else [])) * (tol * tol) <= T * (f j - f (j + w)%nat)).
    { destruct (chk (w + j)%nat) eqn:Ec.
      - cbn [length]. change (INR 1) with 1. rewrite Rmult_1_l. eapply Rle_trans; [|apply Hgn]. pose proof (H (w + j)%nat ltac:(lia) Ec) as Hg.
        replace (j + w)%nat with (w + j)%nat by lia. apply Rmult_le_compat; lra.
      - cbn [length]. change (INR 0) with 0. rewrite Rmult_0_l. apply Rmult_le_pos; auto. pose proof (Hmono j (j + w)%nat ltac:(lia)). lra. }
    cbn in *. lra. }
  eapply Rle_trans; [exact A|]. apply Rmult_le_compat_l; auto. rewrite telescope.
  assert (B : bs (seq 0 w) (fun i => f i) <= INR w * f 0%nat).
  { clear - Hmono. assert (K : forall a, bs (seq a w) (fun i => f i) <= INR w * f 0%nat); [|apply K]. induction w as [|v IH]; intros a; [cbn; lra|].
    cbn [seq]. rewrite bs_cons, S_INR. pose proof (IH (S a)). pose proof (Hmono 0 a ltac:(lia)). lra. }
  assert (0 <= bs (seq k' w) (fun i => f i)) by (apply bigsum_nonneg; auto). lra.
Qed.
End Count.
