(** Property C48: the Gauss-Seidel relaxation *)
From Coq Require Import List ZArith QArith Lia Bool Arith Permutation Ring Reals Qreals Lra.
From Verif Require Import Base Num NumR Tensor Spec Spec3 Spec10 MCommon MHelpers PBase PTensor PSum PMttkrp PMat PMatAlg PResid PGrad PSolve PRank PRank2 PGS PALS PMono.
Import ListNotations.
Local Close Scope Q_scope.
Local Close Scope R_scope.
Local Open Scope num_scope.

(** the inputs: G square and symmetric, its lower triangle invertible by the decomposition the library returns *)
Definition gs_input {N : num} (svd : tensor N -> nat -> tensor N * tensor N * tensor N) (F G : tensor N) (r k : nat) : Prop :=
  is_mat G k k /\ is_mat F r k /\ symmetric G k /\ svd_solvable svd (lower G k) k.
(** the constant 0.5 is a half *)
Definition half_ok (N : num) : Prop := forall x : N, nlit (1 # 2) * (x + x) = x.

Theorem C48_sweeps : forall (N : num) (RL : ring_laws N) (LA : lapack N) (A F G : tensor N) (r k maxits : nat),
  half_ok N -> gs_input (svd LA) F G r k -> is_mat A r k ->
  exists A', Gauss_Seidel LA A F G maxits = Ok A' /\ gs_sweeps r k G F maxits A A'.
Proof.
  intros N RL LA A F G r k m Hh (HG & HF & Hs & Hsvd) HA. apply (gs_ok RL LA G F r k HG HF Hs Hh A m HA). exact Hsvd.
Qed.
(** a state that one relaxation leaves unchanged solves the system, and a solution is left unchanged *)
Theorem C48_fixpoint : forall (N : num) (RL : ring_laws N) (LA : lapack N) (A F G : tensor N) (r k : nat),
  half_ok N -> gs_input (svd LA) F G r k -> is_mat A r k ->
  (Gauss_Seidel LA A F G 1 = Ok A -> mmul A G = F) /\
  (mmul A G = F -> forall maxits, Gauss_Seidel LA A F G maxits = Ok A).
Proof.
  intros N RL LA A F G r k Hh (HG & HF & Hs & Hsvd) HA. split.
  - intros E. destruct (gs_ok RL LA G F r k HG HF Hs Hh A 1 HA Hsvd) as (A' & E' & B & HB & EB). cbn [gs_sweeps] in EB. rewrite E in E'. injection E' as <-. subst B.
    eapply gs_fix; eauto.
  - intros E m. destruct (gs_ok RL LA G F r k HG HF Hs Hh A m HA Hsvd) as (A' & E' & HA'). rewrite E'. f_equal. clear E'.
    revert A' HA'. induction m; intros A' HA'; [exact HA'|]. destruct HA' as (B & HB & HA').
    enough (B = A) by (subst B; auto). exact (gs_unique RL LA G F r k HG HF Hs Hh A B Hsvd HA HB E).
Qed.
(** the exact change of the objective <A G, A> - 2 <A, F> in one sweep *)
Theorem C48_objective : forall (N : num) (RL : ring_laws N) (LA : lapack N) (A F G : tensor N) (r k : nat),
  half_ok N -> gs_input (svd LA) F G r k -> is_mat A r k ->
  exists A', Gauss_Seidel LA A F G 1 = Ok A' /\
  quad r k G F A = quad r k G F A' +
    bigsum (seq 0 r) (fun i => bigsum (seq 0 k) (fun j => el G j j * ((el A' i j - el A i j) * (el A' i j - el A i j)))).
Proof.
  intros N RL LA A F G r k Hh (HG & HF & Hs & Hsvd) HA. destruct (gs_ok RL LA G F r k HG HF Hs Hh A 1 HA Hsvd) as (A' & E' & B & HB & EB). cbn [gs_sweeps] in EB. subst B.
  exists A'. split; auto. apply gs_energy; auto.
Qed.
Lemma Rhalf : half_ok Rnum.
Proof. intros x. cbn. unfold Q2R. cbn. lra. Qed.
Lemma bigsum_nonneg_R {A} (l : list A) (f : A -> Rnum) : (forall x, In x l -> (0 <= f x)%R) -> (0 <= bigsum l f)%R.
Proof.
  induction l; intros H; [cbn; lra|]. change (bigsum (a :: l) f) with (f a + bigsum l f)%R. apply Rplus_le_le_0_compat; [apply H; left; auto|apply IHl; intros; apply H; right; auto].
Qed.
(** relaxing the normal equations of one factor never increases the squared residual *)
Theorem C48_residual : forall (LA : lapack Rnum) (V : tensor Rnum) (W : list (tensor Rnum)) (R n maxits : nat),
  factors_ok V W R -> (n < order V)%nat -> svd_solvable (svd LA) (lower (hgram W n R) R) R ->
  exists A', Gauss_Seidel LA (fac W n) (mttkrp V W n R) (hgram W n R) maxits = Ok A' /\ is_mat A' (nth n (lens V) 0%nat) R /\
    (residual2 V (setf W n A') R <= residual2 V W R)%R.
Proof.
  intros LA V W R n m HW Hn Hsvd. assert (HG := hgram_mat R W n). assert (HF := mttkrp_mat V R W n). set (r := nth n (lens V) 0%nat) in *.
  assert (HA : is_mat (fac W n) r R) by (apply HW; auto).
  destruct (gs_ok Rnum_ring LA (hgram W n R) (mttkrp V W n R) r R HG HF (hgram_sym Rnum_ring W n R) Rhalf (fac W n) m HA Hsvd) as (A' & E & HA').
  exists A'. split; [exact E|].
  assert (H : is_mat A' r R /\ (quad r R (hgram W n R) (mttkrp V W n R) A' <= quad r R (hgram W n R) (mttkrp V W n R) (fac W n))%R).
  { clear E. revert HA HA'. generalize (fac W n). induction m; intros A HA HA'.
    - cbn in HA'. subst. split; auto. lra.
    - destruct HA' as (B & HB & HA'). assert (HBm : is_mat B r R) by apply HB. destruct (IHm B HBm HA') as [H1 H2]. split; auto.
      assert (Hen := gs_energy Rnum_ring (hgram W n R) (mttkrp V W n R) r R HG HF (hgram_sym Rnum_ring W n R) Rhalf A B HA HB).
      match type of Hen with _ = _ + ?q => assert (Hq : (0 <= q)%R) end.
      { apply bigsum_nonneg_R. intros i Hi. apply bigsum_nonneg_R. intros j Hj. apply in_seq in Hj. apply Rmult_le_pos; [|apply Rle_0_sqr].
        unfold hgram, el. rewrite at_tabulate by (apply inb2; lia). cbn [nth]. unfold hgram_at. induction (others n (length W)) as [|m' l IH]; cbn; [lra|].
        apply Rmult_le_pos; [|exact IH]. unfold gram_at. apply bigsum_nonneg_R. intros x _. apply Rle_0_sqr. }
      cbn in Hen, Hq, H2 |- *. lra. }
  destruct H as [H1 H2]. split; auto.
  assert (HL : length W = order V) by apply HW.
  replace (residual2 V W R) with (residual2 V (setf W n (fac W n)) R) by (rewrite (setf_self W n) by lia; auto).
  rewrite !(resid_quad Rnum_ring V W R n) by (auto). fold r. cbn in H2 |- *. lra.
Qed.
(** a concrete case over the reals: a 1 x 4 tensor of rank 2, first factor relaxed *)
Definition m2 (a b c d : R) : tensor Rnum := tabulate [2; 2] (fun x => match x with [0; 0] => a | [0; 1] => b | [1; 0] => c | _ => d end : Rnum)%nat.
Definition gs : tensor Rnum := @mkT Rnum [2%nat] [585%R; 325%R].
Definition gLA : lapack Rnum :=
  @mkLapack Rnum (fun _ _ => (m2 (4/5) (-3/5) (3/5) (4/5), gs, m2 (12/13) (5/13) (-5/13) (12/13))%R)
    (fun A => A) (fun B _ _ _ _ => B) (fun A => A) (fun _ ls => zeros ls).
Definition gW0 : tensor Rnum := @mkT Rnum [1; 2]%nat [0; 0]%R.
Definition gW1 : tensor Rnum := tabulate [4; 2] (fun x => match x with [0; 0] => 12 | [0; 1] => -7 | [1; 0] => 11 | [1; 1] => 3 | [2; 0] => 11 | [2; 1] => 11 | [3; 0] => 11 | _ => 14 end%R : Rnum)%nat.
Definition gV : tensor Rnum := @mkT Rnum [1; 4]%nat [1; 0; 0; 0]%R.
Lemma m2_ext (X : tensor Rnum) a b c d : is_mat X 2 2 -> el X 0 0 = a -> el X 0 1 = b -> el X 1 0 = c -> el X 1 1 = d -> X = m2 a b c d.
Proof.
  intros HX E1 E2 E3 E4. apply (mat_ext _ _ 2 2); auto. { split; [reflexivity|apply tabulate_wf]. }
  intros i j Hi Hj. destruct i as [|[|i]], j as [|[|j]]; try lia; auto.
Qed.
Lemma m2_mat a b c d : is_mat (m2 a b c d) 2 2. Proof. split; [reflexivity|apply tabulate_wf]. Qed.
Lemma m2_mul a b c d a' b' c' d' : mmul (m2 a b c d) (m2 a' b' c' d') = m2 (a * a' + b * c')%R (a * b' + b * d')%R (c * a' + d * c')%R (c * b' + d * d')%R.
Proof. assert (H := m2_mat a b c d). assert (H' := m2_mat a' b' c' d'). apply m2_ext; [eapply mmul_mat; eauto|..]; rewrite (el_mmul _ _ 2 2 2) by (auto; lia); cbn; ring. Qed.
Lemma m2_trans a b c d : mtrans (m2 a b c d) = m2 a c b d. Proof. reflexivity. Qed.
Lemma m2_eq a b c d a' b' c' d' : a = a' -> b = b' -> c = c' -> d = d' -> m2 a b c d = m2 a' b' c' d'. Proof. intros; subst; auto. Qed.
Lemma m2_id : mid 2 = m2 1 0 0 1. Proof. reflexivity. Qed.
Theorem C48_case :
  half_ok Rnum /\ factors_ok gV [gW0; gW1] 2 /\ is_mat gW0 1 2 /\
  gs_input (svd gLA) (mttkrp gV [gW0; gW1] 0 2) (hgram [gW0; gW1] 0 2) 1 2 /\
  svd_solvable (svd gLA) (lower (hgram [gW0; gW1] 0 2) 2) 2 /\
  hgram [gW0; gW1] 0 2 = m2 507 224 224 375 /\
  exists A', Gauss_Seidel gLA gW0 (mttkrp gV [gW0; gW1] 0 2) (hgram [gW0; gW1] 0 2) 1 = Ok A' /\ el A' 0 0 = (12 / 507)%R.
Proof.
  assert (EG : hgram [gW0; gW1] 0 2 = m2 507 224 224 375).
  { apply m2_ext; [apply hgram_mat|..]; unfold hgram, el; rewrite at_tabulate by (apply inb2; lia); cbn; lra. }
  assert (EL : lower (m2 507 224 224 375) 2 = m2 507 0 224 375) by reflexivity.
  assert (HW : factors_ok gV [gW0; gW1] 2).
  { split; [reflexivity|]. split; [reflexivity|]. intros m Hm. destruct m as [|[|m]]; [split; reflexivity|split; reflexivity|cbn in Hm; lia]. }
  assert (Hsvd : svd_solvable (svd gLA) (lower (hgram [gW0; gW1] 0 2) 2) 2).
  { rewrite EG, EL. cbn [svd gLA svd_solvable].
    assert (ED : mdiag 2 (fun i => at_ gs [i]) = m2 585 0 0 325) by reflexivity.
    split.
    - split; [apply m2_mat|]. split; [reflexivity|]. split; [reflexivity|]. split; [apply m2_mat|]. rewrite ED, !m2_trans, m2_id, !m2_mul.
      repeat split; apply m2_eq; lra.
    - intros i Hi. destruct i as [|[|i]]; [cbn; lra|cbn; lra|lia]. }
  assert (Hin : gs_input (svd gLA) (mttkrp gV [gW0; gW1] 0 2) (hgram [gW0; gW1] 0 2) 1 2).
  { split; [apply hgram_mat|]. split; [apply (mttkrp_mat gV 2 [gW0; gW1] 0)|]. split; [apply (hgram_sym Rnum_ring)|exact Hsvd]. }
  assert (HA : is_mat gW0 1 2) by (split; reflexivity).
  split; [exact Rhalf|]. split; [exact HW|]. split; [exact HA|]. split; [exact Hin|]. split; [exact Hsvd|]. split; [exact EG|].
  destruct (C48_sweeps Rnum Rnum_ring gLA gW0 _ _ 1 2 1 Rhalf Hin HA) as (A' & E & B & [HB HS] & EB). cbn [gs_sweeps] in EB. subst B. exists A'. split; auto.
  specialize (HS 0%nat 0%nat ltac:(lia) ltac:(lia)). rewrite EG in HS.
  assert (EM : el (mttkrp gV [gW0; gW1] 0 2) 0 0 = 12%R).
  { unfold mttkrp, el. rewrite at_tabulate by (apply inb2; cbn; lia). cbn. unfold mttkrp_at. cbn. lra. }
  rewrite EM in HS. cbn in HS. match type of HS with context [el A' 0 0] => idtac | _ => change (at_ A' [0%nat; 0%nat]) with (el A' 0 0) in HS end.
  cbn. lra.
Qed.
Print Assumptions C48_sweeps.
Print Assumptions C48_fixpoint.
Print Assumptions C48_objective.
Print Assumptions C48_residual.
Print Assumptions C48_case.
