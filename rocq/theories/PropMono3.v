(** Property C56: cases, and the low-rank multi-sweep optimizer, whose step may increase the objective *)
From Coq Require Import List ZArith QArith Lia Bool Arith Permutation Ring Reals Lra.
From Verif Require Import Base Num NumR Tensor Spec Spec3 Spec10 Spec11 MCommon MCP MOpt MOptLR PBase PTensor PSum PMttkrp PMat PMatAlg PResid PGrad PSolve PRank POptStep POptLR PRank2 PALS PMono PMono2 PropOpt PropOptLR PropRank PropGS PropMono2.
Import ListNotations.
Local Close Scope Q_scope.
Local Close Scope R_scope.
Local Open Scope nat_scope.

Definition oV : tensor Znum := zt [2; 2; 2] [1; 0; 0; 0; 0; 0; 0; 1]%Z.
Definition oI2 : tensor Znum := zt [2; 2] [2; 0; 0; 2]%Z.
Definition oW0 : list (tensor Znum) := [oI2; rI; rI].
Definition oG0 : list (tensor Znum) := [rZ; rZ; rZ].
Lemma rI_exact : chol_exact (cholesky rLA) (solve_tri rLA) rI 2.
Proof.
  assert (EI : rI = mid 2) by (vm_compute; reflexivity). assert (EIt : mtrans rI = mid 2) by (vm_compute; reflexivity).
  split; [split; [split; reflexivity|vm_compute; reflexivity]|].
  intros B q HB. cbn [cholesky solve_tri rLA]. rewrite EIt, EI. split; (split; [auto|apply (mmul_id_r Znum_ring B q 2); auto]).
Qed.
Theorem C56_case :
  factors_ok oV oW0 2 /\ tri_shaped (cholesky rLA) (solve_tri rLA) /\ low_shaped (svd rLA) (qr_q rLA) (rnd rLA) /\
  exact_along (cholesky rLA) (solve_tri rLA) 0%Z oV 2 (dt_schedule 3 2) (oW0, oG0) /\
  exact_along (cholesky rLA) (solve_tri rLA) 0%Z oV 2 (ms_schedule 3 1) (oW0, oG0) /\
  exact_along (cholesky rLA) (solve_tri rLA) 0%Z oV 2 (seq 0 3) (oW0, oG0) /\
  acts_exact (cholesky rLA) (solve_tri rLA) (trunc_of (svd rLA) (qr_q rLA) (rnd rLA) false) 1 0%Z oV 2 (dl_schedule 3 3) (mkLR oW0 oG0 (repeat tnil 3) 0) /\
  objective (0%Z : Znum) oV oW0 2 = 2%Z /\
  objective (0%Z : Znum) oV (fst (ls_modes (chol_solve (cholesky rLA) (solve_tri rLA)) (0%Z : Znum) oV 2 (dt_schedule 3 1) (oW0, oG0))) 2 = 0%Z.
Proof.
  split. { split; [reflexivity|]. split; [reflexivity|]. intros m Hm. destruct m as [|[|[|m]]]; [split; reflexivity..|cbn in Hm; lia]. }
  split. { split; intros; auto. }
  split.
  { split; [|split].
    - intros X r c k HX H1 H2. cbn. rewrite (is_mat_nrow _ _ _ HX), (is_mat_ncol _ _ _ HX). repeat split; try reflexivity; apply tabulate_wf.
    - intros X r c HX _. exact HX.
    - intros seed r c. split; [reflexivity|apply tabulate_wf]. }
  assert (HE := rI_exact).
  assert (K : forall (S : tensor Znum), S = rI -> chol_exact (cholesky rLA) (solve_tri rLA) S 2) by (intros ? ->; exact HE).
  split. { intros a n b E. apply K. clear K HE. destruct a as [|a0 [|a1 [|a2 [|a3 a]]]]; cbn in E; inversion E; subst; vm_compute; reflexivity. }
  split. { intros a n b E. apply K. clear K HE. destruct a as [|a0 [|a1 [|a2 [|a3 a]]]]; cbn in E; inversion E; subst; vm_compute; reflexivity. }
  split. { intros a n b E. apply K. clear K HE. destruct a as [|a0 [|a1 [|a2 [|a3 a]]]]; cbn in E; inversion E; subst; vm_compute; reflexivity. }
  split. { intros l a b E. change (dl_schedule 3 3) with [Full 0; Full 1; Full 2; Full 0; Snap 1; LowRank 1] in E.
    destruct l as [|a0 [|a1 [|a2 [|a3 [|a4 [|a5 [|a6 l]]]]]]]; cbn [app] in E; injection E; intros; subst; try discriminate; cbv zeta;
      try exact I; try (apply K; vm_compute; reflexivity).
    split; [apply K; vm_compute; reflexivity|].
    match goal with |- context [trunc_of _ _ _ _ ?c ?X 1] => replace X with rZ by (vm_compute; reflexivity) end.
    cbn [trunc_of svd rLA]. intros P Q HP HQ.
    unfold nle. apply Z.ltb_ge. change (@nsub Znum) with Z.sub.
    match goal with |- Z.le _ (Z.sub ?x ?y) => replace y with 0%Z by (vm_compute; reflexivity) end.
    rewrite Z.sub_0_r. unfold dist2, minner. cbn [n0 Znum]. cbn -[Z.add Z.mul mmul msub el].
    repeat apply Z.add_nonneg_nonneg; try apply Z.square_nonneg; lia. }
  split; vm_compute; reflexivity.
Qed.
Print Assumptions C56_case.
