(** Over the reals: explicit bounds for the errors of a pairwise-perturbation sweep *)
From Coq Require Import List ZArith QArith Lia Bool Arith Reals Lra.
From Verif Require Import Base Num NumR Tensor Spec Spec2 Spec3 Spec10 Spec11 Spec12 Spec19 Spec20 Spec22 MCommon MCP PBase PTensor PSum PMttkrp PMat PMatAlg PResid PGrad PRank PNormalize PALS PMono PMono2 PTuckMono
  PConv PConv2 PConv4 PErr PErr2 PPP PPPSweep PPPDriver PApprox PApprox2.
Import ListNotations.
Local Close Scope Q_scope.
Local Open Scope R_scope.
Local Notation RL := Rnum_ring.
Local Notation bs := (bigsum (N:=Rnum)).
Local Notation bp := (bigprod (N:=Rnum)).

Ltac rring := match goal with |- ?l = ?r => change (@eq R l r) end; ring.
Lemma mo (x y : R) : x = x + y + -1 * y.
Proof. ring. Qed.
Lemma norm2_mscal (c : R) (A : tensor Rnum) r k : is_mat A r k -> norm2 (mscal (c : Rnum) A) = Rabs c * norm2 A.
Proof.
  intros HA. assert (HB : is_mat (mscal (c : Rnum) A) r k) by (apply mscal_mat; auto).
  apply Rsqr_inj; [apply norm2_pos|apply Rmult_le_pos; [apply Rabs_pos|apply norm2_pos]|]. unfold Rsqr.
  rewrite <- (ip_norm r k _ HB). rewrite ip_scal by auto. rewrite ip_sym, ip_scal by auto. rewrite (ip_norm r k A HA).
  assert (E : Rabs c * Rabs c = c * c) by (rewrite <- Rabs_mult; apply Rabs_pos_eq, Rle_0_sqr).
  transitivity ((Rabs c * Rabs c) * (norm2 A * norm2 A)); [rewrite E|]; match goal with |- ?l = ?r => change (@eq R l r) end; ring.
Qed.
Lemma mttkrp_scaled (V : tensor Rnum) (P Q : list (tensor Rnum)) (c : nat -> R) n rk : (n < order V)%nat ->
  (forall m, (m < order V)%nat -> m <> n -> is_mat (fac P m) (nth m (lens V) 0%nat) rk /\ fac Q m = mscal (c m : Rnum) (fac P m)) ->
  mttkrp V Q n rk = mscal (bp (others n (order V)) c) (mttkrp V P n rk).
Proof.
  intros Hn H. set (r := nth n (lens V) 0%nat). apply (mat_ext _ _ r rk); [apply mttkrp_mat|apply mscal_mat, mttkrp_mat|]. intros i k Hi Hk.
  rewrite (el_mscal _ _ r rk) by (auto; apply mttkrp_mat). rewrite !el_mttkrp by auto. unfold mttkrp_at. rewrite <- (bigsum_mul_l RL). apply bigsum_ext. intros x Hx.
  apply filter_In in Hx as [Hx _]. apply all_idx_in in Hx.
  rewrite (bigprod_ext (others n (order V)) _ (fun m => nmul (c m : Rnum) (el (fac P m) (nth m x 0%nat) k))).
  - rewrite (bigprod_mul RL). match goal with |- nmul _ (nmul ?u ?w) = _ => generalize u w end. generalize (at_ V x). intros v a' b'. change (v * (a' * b') = a' * (v * b')). rring.
  - intros m Hm. apply others_in in Hm as [Hm1 Hm2]. destruct (H m Hm1 Hm2) as [HP ->]. rewrite (el_mscal _ _ (nth m (lens V) 0%nat) rk); auto. apply inb_nth; auto.
Qed.
Lemma bp_between {X} (l : list X) (c : X -> R) rho : 1 <= rho -> (forall x, In x l -> / rho <= c x <= rho) -> Rabs (bp l c - 1) <= rho ^ length l - 1.
Proof.
  intros Hr H. assert (P : 0 < / rho) by (apply Rinv_0_lt_compat; lra).
  assert (G : (/ rho) ^ length l <= bp l c <= rho ^ length l).
  { rewrite <- !(bp_const l). split; apply bp_le; intros x Hx; specialize (H x Hx); lra. }
  assert (Z : 1 <= rho ^ length l) by (apply pow_R1_Rle; auto). rewrite pow_inv in G. set (z := rho ^ length l) in *. set (b := bp l c) in *.
  change (car Rnum) with R in *. clearbody z b. assert (K : 1 - (z - 1) <= / z).
  { apply (Rmult_le_reg_l z); [lra|]. rewrite Rinv_r by lra. pose proof (Rle_0_sqr (z - 1)) as S. unfold Rsqr in S. lra. }
  apply Rabs_le. lra.
Qed.
Lemma ratio_between (a h g y : R) : 0 < a -> 0 <= h < 1 -> a * (1 - h) <= g <= a * (1 + h) -> a * (1 - h) <= y <= a * (1 + h) ->
  / ((1 + h) / (1 - h)) <= g / y <= (1 + h) / (1 - h).
Proof.
  intros Ha Hh Hg Hy. assert (0 < a * (1 - h)) by (apply Rmult_lt_0_compat; lra).
  assert (E : / ((1 + h) / (1 - h)) = (a * (1 - h)) / (a * (1 + h))) by (field; lra). assert (E2 : (1 + h) / (1 - h) = (a * (1 + h)) / (a * (1 - h))) by (field; lra).
  rewrite E, E2. split; unfold Rdiv; apply Rmult_le_compat; try lra.
  - left. apply Rinv_0_lt_compat. lra.
  - apply Rinv_le_contravar; lra.
  - left. apply Rinv_0_lt_compat. lra.
  - apply Rinv_le_contravar; lra.
Qed.
Lemma root_between (l : list (tensor Rnum)) (lo hi g : R) : (1 <= length l)%nat -> 0 <= lo -> 0 <= hi -> 0 <= g -> g ^ length l = bp l norm2 ->
  (forall A, In A l -> lo <= norm2 A <= hi) -> lo <= g <= hi.
Proof.
  intros Hl H0 H1 Hg E H. split; apply (pow_le_inv _ _ (length l)); auto; rewrite E.
  - rewrite <- (bp_const l). apply bp_le. intros A HA. split; auto. apply H. auto.
  - rewrite <- (bp_const l). apply bp_le. intros A HA. split; [apply norm2_pos|]. apply H. auto.
Qed.

Section Sweep.
Context (LA : lapack Rnum) (Hsh : svd_shaped (svd LA)) (V : tensor Rnum) (rk : nat) (lambda t : R) (W0 W dW : list (tensor Rnum)).
Let o := order V.
Notation solve := (pinv_solve (svd LA) rk).
Notation U n := (pp_upto solve (lambda : Rnum) (t : Rnum) V W0 rk n (W, dW)).
Notation err n := (mode_error LA V rk lambda t W0 W dW n).
Hypothesis HW0 : factors_ok V W0 rk.
Hypothesis HW : factors_ok V W rk.
Hypothesis HD : mats_ok V dW rk.
Hypothesis Ho : (2 <= o)%nat.
Lemma upto_later n m : (n <= m)%nat -> (m < o)%nat -> fac (fst (U n)) m = fac W m.
Proof.
  intros Hnm Hm. induction n as [|n IH]; [reflexivity|]. rewrite upto_S'. pose proof (upto_len V rk solve (lambda : Rnum) (t : Rnum) W0 n W dW) as [L1 _].
  specialize (IH ltac:(lia)). destruct (U n) as [Wk dk]. cbn [fst snd] in *. unfold pp_update. cbn [fst].
  assert (LW : length W = o) by apply HW. rewrite fac_setf by lia. destruct (Nat.eqb_spec m n); [lia|]. exact IH.
Qed.
Lemma fac_perturbed D m : (m < o)%nat -> fac (perturbed W0 D) m = madd (fac W0 m) (fac D m).
Proof. intros Hm. unfold perturbed. destruct HW0 as (_ & -> & _). apply (fac_map_seq (fun m => madd (fac W0 m) (fac D m))). auto. Qed.
Lemma upto_earlier n m : (m < n)%nat -> (n <= o)%nat -> fac (fst (U n)) m = fac (perturbed W0 (snd (U n))) m.
Proof.
  intros Hm Hn. rewrite fac_perturbed by lia. apply (upto_fac V rk solve (lambda : Rnum) (t : Rnum) W0 n W dW m); [apply HW|apply HD|lia|lia].
Qed.
Lemma upto_snd_later n m : (n <= m)%nat -> (m < o)%nat -> fac (snd (U n)) m = fac dW m.
Proof.
  intros Hnm Hm. destruct (upto_fac V rk solve (lambda : Rnum) (t : Rnum) W0 n W dW m) as [E _]; [apply HW|apply HD|auto|]. rewrite E.
  destruct (Nat.ltb_spec m n); [lia|reflexivity].
Qed.
Lemma dw_norm n m : (n <= o)%nat -> (m < o)%nat -> norm2 (fac (snd (U n)) m) = norm2 (if (m <? n)%nat then fac (snd (U o)) m else fac dW m).
Proof. intros Hn Hm. rewrite (upto_snd V rk solve (lambda : Rnum) (t : Rnum) W0 n W dW m); auto; [apply HW|apply HD]. Qed.

(** the first sweep after the checkpoint *)
Lemma zmats_norm m : (m < o)%nat -> norm2 (fac (zmats V rk) m) = 0.
Proof.
  intros Hm. unfold zmats. rewrite (fac_map_seq (fun m => zeros [nth m (lens V) 0%nat; rk])) by auto. unfold zeros. rewrite norm2_tabulate. apply nrm_zero.
Qed.
Theorem first_error n : W = W0 -> dW = zmats V rk -> (n < o)%nat ->
  err n <= norm2 V * second_order (others n o) (fun m => norm2 (fac W0 m)) (fun m => norm2 (fac (snd (U o)) m)).
Proof.
  intros E1 E2 Hn. destruct (pp_upto_ok RL V rk LA Hsh (lambda : Rnum) (t : Rnum) W0 W dW n HW0 HW HD ltac:(fold o; lia)) as [HU1 HU2].
  assert (EW : fst (U n) = perturbed W0 (snd (U n))).
  { apply (list_fac_ext _ _ o); [apply HU1|unfold perturbed; rewrite map_length, seq_length; apply HW0|]. intros m Hm.
    destruct (Nat.lt_ge_cases m n) as [H|H]; [apply upto_earlier; lia|]. rewrite upto_later, fac_perturbed, upto_snd_later by auto. rewrite E1, E2.
    assert (HA : is_mat (fac W0 m) (nth m (lens V) 0%nat) rk) by (apply HW0; auto).
    apply (mat_ext _ _ (nth m (lens V) 0%nat) rk); [auto|apply madd_mat; auto|]. intros i j Hi Hj. rewrite (el_madd _ _ _ _ _ _ HA) by auto.
    unfold zmats. rewrite (fac_map_seq (fun m => zeros [nth m (lens V) 0%nat; rk])) by auto. unfold zeros. unfold el at 3. rewrite at_tabulate by (apply inb2; auto). symmetry. apply Rplus_0_r. }
  unfold mode_error. rewrite EW at 1. eapply Rle_trans; [apply pp_mttkrp_error; [fold o; lia|exact Hn|apply HW0| |exact HU2]|].
  - destruct HW0 as (_ & H1 & H2). split; auto.
  - apply Rmult_le_compat_l; [apply norm2_pos|]. apply second_order_mono; [apply others_nodup|intros; split; [apply norm2_pos|apply Rle_refl]|].
    intros m Hm. apply others_in in Hm as [Hm _]. split; [apply norm2_pos|]. rewrite dw_norm by (auto; lia). destruct (m <? n)%nat; [apply Rle_refl|].
    rewrite E2, zmats_norm by auto. apply norm2_pos.
Qed.

(** a later sweep, from rescaled factors *)
Variable a h : R.
Hypothesis Ha : 0 < a.
Hypothesis Hh : 0 <= h < 1.
Hypothesis HN : forall m, (m < o)%nat -> norm2 (fac W0 m) = a.
Lemma perturbed_norm D m : mats_ok V D rk -> (m < o)%nat -> norm2 (fac D m) <= h * a -> a * (1 - h) <= norm2 (fac (perturbed W0 D) m) <= a * (1 + h).
Proof.
  intros HDm Hm Hb. rewrite fac_perturbed by auto. assert (HA : is_mat (fac W0 m) (nth m (lens V) 0%nat) rk) by (apply HW0; auto).
  assert (HB : is_mat (fac D m) (nth m (lens V) 0%nat) rk) by (apply HDm; auto). set (r := nth m (lens V) 0%nat) in *. split.
  - assert (E : fac W0 m = madd (madd (fac W0 m) (fac D m)) (mscal ((-1) : Rnum) (fac D m))).
    { apply (mat_ext _ _ r rk); [auto|apply madd_mat, madd_mat; auto|]. intros i j Hi Hj. rewrite !(el_madd _ _ r rk), (el_mscal _ _ r rk) by (auto; apply madd_mat; auto).
      generalize (el (fac W0 m) i j) (el (fac D m) i j). intros x y. apply mo. }
    pose proof (norm2_madd (madd (fac W0 m) (fac D m)) (mscal ((-1) : Rnum) (fac D m)) r rk (madd_mat _ _ _ _ HA) (mscal_mat _ _ _ _ HB)) as T.
    rewrite <- E in T. rewrite (HN m Hm), (norm2_mscal (-1) _ r rk HB) in T. replace (Rabs (-1)) with 1 in T by (rewrite Rabs_left; lra).
    set (x := norm2 (madd (fac W0 m) (fac D m))) in *. set (d := norm2 (fac D m)) in *. change (car Rnum) with R in *. clearbody x d. lra.
  - eapply Rle_trans; [apply (norm2_madd _ _ r rk); auto|]. rewrite (HN m Hm). set (d := norm2 (fac D m)) in *. change (car Rnum) with R in *. clearbody d. lra.
Qed.
Theorem later_error n : W = rescaled (perturbed W0 dW) -> (n < o)%nat ->
  (forall m, (m < o)%nat -> norm2 (fac dW m) <= h * a) -> (forall m, (m < o)%nat -> norm2 (fac (snd (U o)) m) <= h * a) ->
  err n <= norm2 V * (a ^ (o - 1) * pp_gap (o - 1) h).
Proof.
  intros EW Hn H1 H2. destruct (pp_upto_ok RL V rk LA Hsh (lambda : Rnum) (t : Rnum) W0 W dW n HW0 HW HD ltac:(fold o; lia)) as [HU1 HU2].
  set (D := snd (U n)) in *. set (P := perturbed W0 D). assert (Hd : forall m, (m < o)%nat -> norm2 (fac D m) <= h * a).
  { intros m Hm. unfold D. rewrite dw_norm by (auto; lia). destruct (m <? n)%nat; auto. }
  assert (HV : wf V) by apply HW0. assert (HM0 : mats_ok V W0 rk) by (destruct HW0 as (_ & K1 & K2); split; auto).
  assert (HP : forall m, (m < o)%nat -> is_mat (fac P m) (nth m (lens V) 0%nat) rk).
  { intros m Hm. unfold P. rewrite fac_perturbed by auto. apply madd_mat. apply HW0. auto. }
  set (Q := perturbed W0 dW) in *. assert (LQ : length Q = o) by (unfold Q, perturbed; rewrite map_length, seq_length; apply HW0).
  assert (NQ : forall m, (m < o)%nat -> a * (1 - h) <= norm2 (fac Q m) <= a * (1 + h)) by (intros m Hm; apply perturbed_norm; auto).
  assert (A0 : 0 < a * (1 - h)) by (apply Rmult_lt_0_compat; lra).
  set (g := Rroot (length Q) (bp Q norm2)).
  assert (HQ : forall q, (q < length Q)%nat -> is_mat (fac Q q) (nrow (fac Q q)) rk /\ norm2 (fac Q q) <> 0).
  { intros q Hq. rewrite LQ in Hq. assert (HMq : is_mat (fac Q q) (nth q (lens V) 0%nat) rk) by (unfold Q; rewrite fac_perturbed by auto; apply madd_mat, HW0; auto).
    split; [rewrite (is_mat_nrow _ _ _ HMq); auto|]. intros Z. specialize (NQ q Hq). rewrite Z in NQ. change (car Rnum) with R in *. lra. }
  destruct (rescaled_norms Q rk 0 ltac:(lia) HQ ltac:(lia)) as (_ & Eg & G0). fold g in Eg, G0.
  assert (Hg : a * (1 - h) <= g <= a * (1 + h)).
  { apply (root_between Q); auto; try lia; try lra; [apply Rmult_le_pos; lra|]. intros A HA. destruct (In_nth _ _ tnil HA) as (q & Hq & <-). apply NQ. lia. }
  set (rho := (1 + h) / (1 - h)).
  assert (Hrho : 1 <= rho). { unfold rho. apply (Rmult_le_reg_r (1 - h)); [lra|]. unfold Rdiv. rewrite Rmult_assoc, Rinv_l by lra. lra. }
  set (c := fun m => if (m <? n)%nat then 1 else g / norm2 (fac Q m)).
  assert (Ec : mttkrp V (fst (U n)) n rk = mscal (bp (others n o) c) (mttkrp V P n rk)).
  { apply mttkrp_scaled; auto. intros m Hm Hne. split; [apply HP; auto|]. unfold c. destruct (Nat.ltb_spec m n) as [L|L].
    - rewrite upto_earlier by lia. fold D P. specialize (HP m Hm). apply (mat_ext _ _ (nth m (lens V) 0%nat) rk); auto; [apply mscal_mat; auto|]. intros i j Hi Hj.
      rewrite (el_mscal _ _ (nth m (lens V) 0%nat) rk) by auto. symmetry. apply Rmult_1_l.
    - rewrite upto_later by (auto; lia). rewrite EW. unfold rescaled, fac at 1. rewrite (nth_map_lt _ _ _ tnil) by lia. fold (fac Q m).
      change (mscal (g / norm2 (fac Q m) : Rnum) (fac Q m) = mscal (g / norm2 (fac Q m) : Rnum) (fac P m)). f_equal. unfold Q, P. rewrite !fac_perturbed by auto. f_equal.
      unfold D. symmetry. apply upto_snd_later; auto. }
  assert (Hc : Rabs (bp (others n o) c - 1) <= rho ^ (o - 1) - 1).
  { rewrite <- (others_length n o Hn). apply bp_between; auto. intros m Hm. apply others_in in Hm as [Hm _]. unfold c. destruct (m <? n)%nat.
    - split; [|auto]. rewrite <- Rinv_1. apply Rinv_le_contravar; lra.
    - apply (ratio_between a); auto. }
  assert (BP : bp (others n o) (fun m => norm2 (fac P m)) <= a ^ (o - 1) * (1 + h) ^ (o - 1)).
  { rewrite <- Rpow_mult_distr, <- (others_length n o Hn). apply bp_le_pow; [apply Rmult_le_pos; lra|]. intros m Hm. apply others_in in Hm as [Hm _]. split; [apply norm2_pos|]. apply perturbed_norm; auto. }
  unfold mode_error. fold D. rewrite Ec. set (M := mttkrp V P n rk). set (M' := pp_mttkrp V W0 D n rk). set (cc := bp (others n o) c) in *.
  assert (HM : is_mat M (nth n (lens V) 0%nat) rk) by apply mttkrp_mat. assert (HM' : is_mat M' (nth n (lens V) 0%nat) rk) by apply pp_mttkrp_mat.
  set (r := nth n (lens V) 0%nat) in *.
  assert (ES : msub (mscal cc M) M' = madd (mscal ((cc - 1) : Rnum) M) (msub M M')).
  { apply (mat_ext _ _ r rk); [apply msub_mat', mscal_mat; auto|apply madd_mat, mscal_mat; auto|]. intros i j Hi Hj.
    rewrite (el_msub _ _ r rk), (el_madd _ _ r rk), (el_mscal _ _ r rk), (el_mscal _ _ r rk), (el_msub _ _ r rk) by (auto; apply mscal_mat; auto).
    generalize (el M i j) (el M' i j). intros x y. change (cc * x - y = (cc - 1) * x + (x - y)). rring. }
  rewrite ES. eapply Rle_trans; [apply (norm2_madd _ _ r rk); [apply mscal_mat; auto|apply msub_mat'; auto]|]. rewrite (norm2_mscal _ _ r rk HM).
  assert (B1 : Rabs (cc - 1) * norm2 M <= (rho ^ (o - 1) - 1) * (norm2 V * (a ^ (o - 1) * (1 + h) ^ (o - 1)))).
  { apply Rmult_le_compat; [apply Rabs_pos|apply norm2_pos|exact Hc|]. eapply Rle_trans; [apply mttkrp_norm; [fold o; lia|exact Hn|exact HV|intros; apply HP; auto]|].
    apply Rmult_le_compat_l; [apply norm2_pos|exact BP]. }
  assert (B2 : norm2 (msub M M') <= norm2 V * (a ^ (o - 1) * (INR (o - 1) * (INR (o - 1) - 1) / 2 * (h * h) * (1 + h) ^ (o - 1)))).
  { unfold M, M', P. eapply Rle_trans; [apply pp_mttkrp_error; [fold o; lia|exact Hn|exact HV|exact HM0|exact HU2]|]. fold o. apply Rmult_le_compat_l; [apply norm2_pos|].
    eapply Rle_trans; [apply (second_order_mono _ _ (fun _ => a) _ (fun m => h * a))|].
    - apply others_nodup.
    - intros m Hm. apply others_in in Hm as [Hm _]. rewrite (HN m Hm). split; [lra|apply Rle_refl].
    - intros m Hm. apply others_in in Hm as [Hm _]. split; [apply norm2_pos|apply Hd; auto].
    - rewrite (second_order_scaled (others n o) (fun _ => a) h) by apply others_nodup. rewrite bp_const, others_length by auto.
      apply Rmult_le_compat_l; [apply pow_le; lra|]. apply binomial_tail. lra. }
  unfold pp_gap. fold rho. set (v := norm2 V) in *. set (x := norm2 (msub M M')) in *. set (y := Rabs (cc - 1) * norm2 M) in *. change (car Rnum) with R in *.
  eapply Rle_trans; [apply Rplus_le_compat; [exact B1|exact B2]|]. apply Req_le. clearbody v. set (A := a ^ (o - 1)). set (B := (1 + h) ^ (o - 1)). set (C := rho ^ (o - 1)). ring.
Qed.
End Sweep.
