(** ALS sweeps never increase the squared residual *)
From Coq Require Import List ZArith QArith Lia Bool Arith Permutation Ring Reals.
From Verif Require Import Base Num Tensor Spec MCommon MCP PBase PTensor PSum PMat PMatAlg PResid PSolve PNormalize
  PGrad PTree PDT PDTSweep PALS NumR.
Import ListNotations.
Local Close Scope Q_scope.
Local Close Scope R_scope.

Section P.
Context {N : num} (RL : ring_laws N) (OL : ord_laws N).
Local Open Scope num_scope.

Lemma setf_self (W : list (tensor N)) n : (n < length W)%nat -> setf W n (fac W n) = W.
Proof.
  unfold setf, fac. revert n. induction W; intros n Hn; cbn in Hn; [lia|].
  destruct n; cbn; auto. f_equal. apply IHW. lia.
Qed.

(** any solver that returns a matrix solving the normal equations *)
Theorem update_monotone solve (V : tensor N) F W R n : factors_ok V W R -> (n < order V)%nat -> zero_mats V F R ->
  (let X := solve (mttkrp V W n R) (hgram W n R) in is_mat X (nth n (lens V) 0%nat) R /\ mmul X (hgram W n R) = mttkrp V W n R) ->
  nle (residual2 V (als_update solve n0 V F R W n) R) (residual2 V W R).
Proof.
  intros HW Hn HF. cbv zeta. intros [HX HE]. unfold als_update.
  assert (Er : als_rhs V F W R n = mttkrp V W n R).
  { unfold als_rhs. apply (madd_zero_r RL _ _ (nth n (lens V) 0%nat) R); [apply mttkrp_mat|]. intros; apply HF; auto. }
  rewrite Er, (lhs_zero RL).
  assert (HL : length W = order V) by apply HW.
  assert (E : residual2 V W R = residual2 V (setf W n (fac W n)) R) by (rewrite setf_self by lia; auto).
  rewrite E. apply (normal_eq_minimises RL OL); auto. apply HW; auto.
Qed.

Context (LA : lapack N) (Hsh : svd_shaped (svd LA)).
Lemma pinv_solves (M S : tensor N) r k : is_mat M r k -> is_mat S k k -> svd_solvable (svd LA) S k ->
  is_mat (pinv_solve (svd LA) k M S) r k /\ mmul (pinv_solve (svd LA) k M S) S = M.
Proof.
  intros HM HS Hg.
  destruct (SVD_solve_ok RL LA M (zeros [r; k]) S r k) as (W' & E1 & HW' & E2); auto.
  destruct (SVD_solve_pinv RL LA M (zeros [r; k]) S r k) as [E3 H3]; auto.
  rewrite E1 in E3. injection E3 as ->. auto.
Qed.
Theorem sweep_monotone (V : tensor N) F W R : factors_ok V W R -> zero_mats V F R ->
  (forall n, (n < order V)%nat -> svd_solvable (svd LA) (hgram (als_upto (pinv_solve (svd LA) R) n0 V F R n W) n R) R) ->
  nle (residual2 V (als_sweep (pinv_solve (svd LA) R) n0 V F R W) R) (residual2 V W R).
Proof.
  intros HW HF Hg. unfold als_sweep.
  assert (H : forall n, (n <= order V)%nat -> nle (residual2 V (als_upto (pinv_solve (svd LA) R) n0 V F R n W) R) (residual2 V W R)).
  { induction n; intros Hn. { apply (le_refl OL). }
    rewrite upto_S. eapply (le_trans OL); [|apply IHn; lia].
    assert (HU := upto_factors RL LA V R Hsh n0 F W n HW ltac:(lia)).
    apply update_monotone; auto. apply pinv_solves; auto. apply mttkrp_mat. apply hgram_mat. }
  apply H. lia.
Qed.
End P.

(** over the reals, with the normalisation *)
Lemma residual_cp (V : tensor Rnum) W W' R : factors_ok V W R -> factors_ok V W' R -> cp_full W' R = cp_full W R ->
  residual2 V W' R = residual2 V W R.
Proof.
  intros HW HW' E. unfold residual2. apply bigsum_ext. intros x Hx. apply all_idx_in in Hx.
  assert (Ex : forall W, factors_ok V W R -> at_ (cp_full W R) x = cp_at W R x).
  { intros X HX. unfold cp_full. rewrite at_tabulate; auto.
    replace (map nrow X) with (lens V); auto. destruct HX as (_ & HL & HX).
    apply nth_ext with (d:=0) (d':=0). { rewrite map_length. auto. }
    intros n Hn. rewrite (nth_map_lt _ _ _ tnil) by (rewrite HL; auto). symmetry. apply (is_mat_nrow _ _ R). apply HX. auto. }
  rewrite <- (Ex W) by auto. rewrite <- (Ex W') by auto. rewrite E. auto.
Qed.
Lemma rescaled_factors {N : num} (V : tensor N) W R : factors_ok V W R -> factors_ok V (rescaled W) R.
Proof.
  intros (Hs1 & Hs2 & Hs3). split; auto. unfold rescaled. split; [rewrite map_length; auto|].
  intros m Hm. unfold fac. rewrite (nth_map_lt _ _ _ tnil) by lia. apply mscal_mat, Hs3; auto.
Qed.
Theorem rescaled_residual (V : tensor Rnum) W R : factors_ok V W R -> 1 <= order V ->
  (forall m, m < order V -> norm2 (fac W m) <> 0%R) ->
  residual2 V (rescaled W) R = residual2 V W R.
Proof.
  intros HW Ho Hn. apply residual_cp; auto. { apply rescaled_factors; auto. }
  assert (HL : length W = order V) by apply HW.
  destruct (Normalize_R W R) as (W' & E1 & _ & _ & E2 & _).
  - lia.
  - intros m Hm. eexists. apply HW. lia.
  - intros m Hm. apply Hn. lia.
  - rewrite HL in E1. rewrite (Normalize_rescaled Rnum_ring V R W HW) in E1. injection E1 as <-. auto.
Qed.
