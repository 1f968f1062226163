(** Matrix algebra on the specification level *)
From Coq Require Import List ZArith Lia Bool Arith Permutation Ring.
From Verif Require Import Base Num Tensor Spec PBase PTensor PSum PMttkrp PMat.
Import ListNotations.

Section P.
Context {N : num} (RL : ring_laws N).
Let RT : ring_theory (@n0 N) n1 nadd nmul nsub nopp (@eq N) := RL.
Add Ring Nring : RT.
Local Open Scope num_scope.
Implicit Types A B C : tensor N.

Lemma mmul_mk A B r k c : is_mat A r k -> is_mat B k c ->
  mmul A B = mk r c (fun i j => bigsum (seq 0 k) (fun x => el A i x * el B x j)).
Proof. intros HA HB. unfold mmul, mk. rewrite (is_mat_nrow _ _ _ HA), (is_mat_ncol _ _ _ HA), (is_mat_ncol _ _ _ HB). auto. Qed.
Lemma mmul_mat A B r k c : is_mat A r k -> is_mat B k c -> is_mat (mmul A B) r c.
Proof. intros. rewrite (mmul_mk A B r k c) by auto. apply mk_mat. Qed.
Lemma el_mmul A B r k c i j : is_mat A r k -> is_mat B k c -> i < r -> j < c ->
  el (mmul A B) i j = bigsum (seq 0 k) (fun x => el A i x * el B x j).
Proof. intros. rewrite (mmul_mk A B r k c) by auto. rewrite el_mk by auto; auto. Qed.
Lemma mmul_assoc A B C r k l c : is_mat A r k -> is_mat B k l -> is_mat C l c ->
  mmul (mmul A B) C = mmul A (mmul B C).
Proof.
  intros HA HB HC. apply (mat_ext _ _ r c).
  - eapply mmul_mat; eauto. eapply mmul_mat; eauto.
  - eapply mmul_mat; eauto. eapply mmul_mat; eauto.
  - intros i j Hi Hj. rewrite (el_mmul (mmul A B) C r l c) by (auto; eapply mmul_mat; eauto).
    rewrite (el_mmul A (mmul B C) r k c) by (auto; eapply mmul_mat; eauto).
    transitivity (bigsum (seq 0 l) (fun y => bigsum (seq 0 k) (fun x => el A i x * el B x y * el C y j))).
    + apply bigsum_ext. intros y Hy. apply in_seq in Hy. rewrite (el_mmul A B r k l) by (auto; lia).
      rewrite <- (bigsum_mul_r RL). auto.
    + rewrite (bigsum_swap RL). apply bigsum_ext. intros x Hx. apply in_seq in Hx.
      rewrite (el_mmul B C k l c) by (auto; lia). rewrite <- (bigsum_mul_l RL). apply bigsum_ext. intros. ring.
Qed.
Lemma mdiag_mat k f : is_mat (mdiag k f : tensor N) k k.
Proof. split; [reflexivity|apply tabulate_wf]. Qed.
Lemma el_mdiag k (f : nat -> N) i j : i < k -> j < k -> el (mdiag k f) i j = if Nat.eqb i j then f i else n0.
Proof. intros. unfold mdiag, el. rewrite at_tabulate by (apply inb2; auto). auto. Qed.
Lemma bigsum_delta' i k (f : nat -> N) : i < k ->
  bigsum (seq 0 k) (fun j => if Nat.eqb j i then f j else n0) = f i.
Proof.
  intros Hi. rewrite (bigsum_single RL _ _ i).
  - rewrite Nat.eqb_refl. auto.
  - apply seq_NoDup.
  - apply in_seq. lia.
  - intros x _ Hx. destruct (Nat.eqb_spec x i); congruence.
Qed.
Lemma mmul_diag_r A r k f : is_mat A r k -> mmul A (mdiag k f) = mk r k (fun i j => el A i j * f j).
Proof.
  intros HA. apply mat_mk; [eapply mmul_mat; eauto; apply mdiag_mat|].
  intros i j Hi Hj. rewrite (el_mmul A (mdiag k f) r k k) by (auto; apply mdiag_mat).
  rewrite <- (bigsum_delta' j k (fun j => el A i j * f j)) by auto. apply bigsum_ext. intros x Hx. apply in_seq in Hx.
  rewrite el_mdiag by lia. destruct (Nat.eqb x j); ring.
Qed.
Lemma mmul_id_r A r k : is_mat A r k -> mmul A (mid k) = A.
Proof. intros HA. unfold mid. rewrite (mmul_diag_r A r k) by auto. symmetry. apply mat_mk; auto. intros. ring. Qed.
Lemma mmul_id_l A r k : is_mat A r k -> mmul (mid r) A = A.
Proof.
  intros HA. apply (mat_ext _ _ r k); auto; [eapply mmul_mat; eauto; apply mdiag_mat|].
  intros i j Hi Hj. rewrite (el_mmul (mid r) A r r k) by (auto; apply mdiag_mat).
  rewrite <- (bigsum_delta' i r (fun x => el A x j)) by auto. apply bigsum_ext. intros x Hx. apply in_seq in Hx.
  unfold mid. rewrite el_mdiag by lia. rewrite (Nat.eqb_sym i). destruct (Nat.eqb x i); ring.
Qed.
Lemma mtrans_mat A r c : is_mat A r c -> is_mat (mtrans A) c r.
Proof. intros HA. split; [|apply tabulate_wf]. unfold mtrans. cbn [lens tabulate]. rewrite (is_mat_nrow _ _ _ HA), (is_mat_ncol _ _ _ HA). auto. Qed.
Lemma el_mtrans A r c i j : is_mat A r c -> i < c -> j < r -> el (mtrans A) i j = el A j i.
Proof.
  intros HA Hi Hj. unfold mtrans, el at 1. rewrite (is_mat_nrow _ _ _ HA), (is_mat_ncol _ _ _ HA).
  rewrite at_tabulate by (apply inb2; auto). auto.
Qed.
Lemma mdiag_mul k (f g : nat -> N) : mmul (mdiag k f) (mdiag k g) = mdiag k (fun i => f i * g i).
Proof.
  rewrite (mmul_diag_r _ k k) by apply mdiag_mat. symmetry. apply mat_mk; [apply mdiag_mat|].
  intros i j Hi Hj. rewrite !el_mdiag by auto. destruct (Nat.eqb_spec i j); subst; ring.
Qed.
Lemma madd_mat A B r c : is_mat A r c -> is_mat (madd A B) r c.
Proof. intros [E _]. split; [auto|apply tabulate_wf]. Qed.
Lemma msub_mat' A B r c : is_mat A r c -> is_mat (msub A B) r c.
Proof. intros [E _]. split; [auto|apply tabulate_wf]. Qed.
Lemma mscal_mat a A r c : is_mat A r c -> is_mat (mscal a A) r c.
Proof. intros [E _]. split; [auto|apply tabulate_wf]. Qed.
Lemma el_madd A B r c i j : is_mat A r c -> i < r -> j < c -> el (madd A B) i j = el A i j + el B i j.
Proof. intros [E _] Hi Hj. unfold madd, el. rewrite E, at_tabulate by (apply inb2; auto). auto. Qed.
Lemma el_msub A B r c i j : is_mat A r c -> i < r -> j < c -> el (msub A B) i j = el A i j - el B i j.
Proof. intros [E _] Hi Hj. unfold msub, el. rewrite E, at_tabulate by (apply inb2; auto). auto. Qed.
Lemma el_mscal a A r c i j : is_mat A r c -> i < r -> j < c -> el (mscal a A) i j = a * el A i j.
Proof. intros [E _] Hi Hj. unfold mscal, el. rewrite E, at_tabulate by (apply inb2; auto). auto. Qed.
End P.
