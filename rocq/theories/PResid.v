(** The squared residual as a function of one factor: its exact expansion.
    Pure mathematics about Spec.v; no model function is used here. *)
From Coq Require Import List ZArith Lia Bool Arith Permutation Ring.
From Verif Require Import Base Num Tensor Spec MCommon PBase PTensor PSum PMttkrp PMat PKhatri PGrad.
Import ListNotations.

Section P.
Context {N : num} (RL : ring_laws N).
Let RT : ring_theory (@n0 N) n1 nadd nmul nsub nopp (@eq N) := RL.
Add Ring Nring : RT.
Local Open Scope num_scope.
Implicit Types (V B : tensor N) (W : list (tensor N)) (A H : tensor N).

(** sum over all multi-indices of a product of one-index functions *)
Lemma bigprod_seq_shift a n (g : nat -> N) : bigprod (seq (S a) n) g = bigprod (seq a n) (fun m => g (S m)).
Proof. rewrite <- seq_shift, bigprod_map. auto. Qed.
Lemma bigprod_cons {X} (a : X) l (f : X -> N) : bigprod (a :: l) f = f a * bigprod l f.
Proof. reflexivity. Qed.
Lemma sum_prod ls (g : nat -> nat -> N) :
  bigsum (all_idx ls) (fun x => bigprod (seq 0 (length ls)) (fun m => g m (nth m x 0%nat)))
  = bigprod (seq 0 (length ls)) (fun m => bigsum (seq 0 (nth m ls 0%nat)) (g m)).
Proof.
  revert g. induction ls as [|n ls IH]; intros g; [simpl; ring|].
  cbn [all_idx length seq]. rewrite (bigsum_flat_map RL).
  assert (E : forall t, bigsum (map (fun i => i :: t) (seq 0 n))
       (fun x => bigprod (0%nat :: seq 1 (length ls)) (fun m => g m (nth m x 0%nat)))
     = bigsum (seq 0 n) (g 0%nat) * bigprod (seq 0 (length ls)) (fun m => g (S m) (nth m t 0%nat))).
  { intros t. rewrite bigsum_map, <- (bigsum_mul_r RL). apply bigsum_ext. intros i _.
    rewrite bigprod_cons, bigprod_seq_shift. cbn [nth]. auto. }
  erewrite bigsum_ext by (intros t _; apply E).
  rewrite (bigsum_mul_l RL), (IH (fun m => g (S m))).
  rewrite bigprod_cons, bigprod_seq_shift. cbn [nth]. auto.
Qed.

Lemma bigprod_others n o (f : nat -> N) : n < o -> bigprod (seq 0 o) f = f n * bigprod (others n o) f.
Proof. intros Hn. rewrite <- (bigprod_perm RL _ _ f (others_perm n o Hn)). reflexivity. Qed.

Lemma bigsum_delta i k (f : nat -> N) : i < k ->
  bigsum (seq 0 k) (fun j => if Nat.eqb j i then f j else n0) = f i.
Proof.
  intros Hi. rewrite (bigsum_single RL _ _ i).
  - rewrite Nat.eqb_refl. auto.
  - apply seq_NoDup.
  - apply in_seq. lia.
  - intros x _ Hx. destruct (Nat.eqb_spec x i); congruence.
Qed.

(** sum over the multi-indices with x_n = i of a product over the other modes *)
Lemma fiber_prod ls n i (g : nat -> nat -> N) : n < length ls -> i < nth n ls 0%nat ->
  bigsum (filter (fun x => Nat.eqb (nth n x 0%nat) i) (all_idx ls))
         (fun x => bigprod (others n (length ls)) (fun m => g m (nth m x 0%nat)))
  = bigprod (others n (length ls)) (fun m => bigsum (seq 0 (nth m ls 0%nat)) (g m)).
Proof.
  intros Hn Hi. rewrite (bigsum_filter RL).
  set (h := fun m j => if Nat.eqb m n then (if Nat.eqb j i then n1 else n0) else g m j).
  transitivity (bigsum (all_idx ls) (fun x => bigprod (seq 0 (length ls)) (fun m => h m (nth m x 0%nat)))).
  - apply bigsum_ext. intros x _. rewrite (bigprod_others n) by auto.
    assert (E : bigprod (others n (length ls)) (fun m => h m (nth m x 0%nat)) = bigprod (others n (length ls)) (fun m => g m (nth m x 0%nat))).
    { apply bigprod_ext. intros m Hm. apply others_in in Hm. unfold h. destruct (Nat.eqb_spec m n); [lia|auto]. }
    rewrite E. unfold h. rewrite Nat.eqb_refl. destruct (Nat.eqb (nth n x 0%nat) i); ring.
  - rewrite sum_prod, (bigprod_others n) by auto.
    assert (E : bigprod (others n (length ls)) (fun m => bigsum (seq 0 (nth m ls 0%nat)) (h m))
      = bigprod (others n (length ls)) (fun m => bigsum (seq 0 (nth m ls 0%nat)) (g m))).
    { apply bigprod_ext. intros m Hm. apply others_in in Hm. apply bigsum_ext. intros j _. unfold h. destruct (Nat.eqb_spec m n); [lia|auto]. }
    rewrite E. unfold h. rewrite Nat.eqb_refl. rewrite (bigsum_delta i _ (fun _ => n1)) by auto. ring.
Qed.

(** splitting a sum over all multi-indices along mode n *)
Lemma sum_fibers ls n (F : list nat -> N) : n < length ls ->
  bigsum (all_idx ls) F
  = bigsum (seq 0 (nth n ls 0%nat)) (fun i => bigsum (filter (fun x => Nat.eqb (nth n x 0%nat) i) (all_idx ls)) F).
Proof.
  intros Hn.
  transitivity (bigsum (seq 0 (nth n ls 0%nat)) (fun i => bigsum (all_idx ls) (fun x => if Nat.eqb (nth n x 0%nat) i then F x else n0))).
  2:{ apply bigsum_ext. intros. rewrite (bigsum_filter RL). auto. }
  rewrite (bigsum_swap RL). apply bigsum_ext. intros x Hx.
  apply all_idx_in in Hx.
  assert (Hlt : nth n x 0%nat < nth n ls 0%nat).
  { clear -Hx Hn. revert n Hn. induction Hx; intros n Hn; simpl in *; [lia|]. destruct n; auto. apply IHHx. lia. }
  symmetry. transitivity (bigsum (seq 0 (nth n ls 0%nat)) (fun i => if Nat.eqb i (nth n x 0%nat) then F x else n0)).
  - apply bigsum_ext. intros i _. rewrite (Nat.eqb_sym i). auto.
  - apply (bigsum_delta (nth n x 0%nat) (nth n ls 0%nat) (fun _ => F x)). auto.
Qed.

(** Khatri-Rao row product over the modes other than n *)
Definition zrow W n (x : list nat) (r : nat) : N := bigprod (others n (length W)) (fun m => el (fac W m) (nth m x 0%nat) r).

Lemma cp_at_split W R n x : n < length W ->
  cp_at W R x = bigsum (seq 0 R) (fun r => el (fac W n) (nth n x 0%nat) r * zrow W n x r).
Proof. intros Hn. unfold cp_at. apply bigsum_ext. intros r _. rewrite (bigprod_others n) by auto. auto. Qed.
Lemma zrow_setf W n A x r : n < length W -> zrow (setf W n A) n x r = zrow W n x r.
Proof.
  intros Hn. unfold zrow. rewrite setf_length. apply bigprod_ext. intros m Hm. apply others_in in Hm.
  rewrite fac_setf by auto. destruct (Nat.eqb_spec m n); [lia|auto].
Qed.

(** S_n is the Gram matrix of the Khatri-Rao product, seen from any row of mode n *)
Lemma zrow_gram V W R n i r l : factors_ok V W R -> n < order V -> i < nth n (lens V) 0%nat ->
  bigsum (filter (fun x => Nat.eqb (nth n x 0%nat) i) (all_idx (lens V))) (fun x => zrow W n x r * zrow W n x l)
  = hgram_at W n r l.
Proof.
  intros (_ & HL & HW) Hn Hi. unfold hgram_at, gram_at.
  rewrite HL. change (order V) with (length (lens V)).
  transitivity (bigprod (others n (length (lens V))) (fun m => bigsum (seq 0 (nth m (lens V) 0%nat)) (fun j => el (fac W m) j r * el (fac W m) j l))).
  - rewrite <- (fiber_prod (lens V) n i) by auto. apply bigsum_ext. intros x _. unfold zrow. rewrite HL.
    rewrite <- (bigprod_mul RL). auto.
  - apply bigprod_ext. intros m Hm. apply others_in in Hm. destruct (HW m) as [E _]; [unfold order; tauto|].
    unfold nrow. rewrite E. auto.
Qed.

(** < V - [[..B..]] , [[..H..]] >  =  - < B S - M , H > *)
Lemma cross_term V W R n A H :
  factors_ok V W R -> n < order V ->
  is_mat A (nth n (lens V) 0%nat) R -> is_mat H (nth n (lens V) 0%nat) R ->
  bigsum (all_idx (lens V)) (fun x => (at_ V x - cp_at (setf W n A) R x) * cp_at (setf W n H) R x)
  = - minner (nth n (lens V) 0%nat) R (msub (mmul A (hgram W n R)) (mttkrp V W n R)) H.
Proof.
  intros HW Hn HA HH. pose proof HW as (_ & HL & _).
  rewrite (sum_fibers (lens V) n) by auto. unfold minner. rewrite <- (bigsum_opp RL). apply bigsum_ext.
  intros i Hi. apply in_seq in Hi. set (P := filter _ _).
  transitivity (bigsum P (fun x => bigsum (seq 0 R) (fun l =>
     (at_ V x * zrow W n x l - bigsum (seq 0 R) (fun r => el A i r * (zrow W n x r * zrow W n x l))) * el H i l))).
  - apply bigsum_ext. intros x Hx. apply filter_In in Hx as [_ Hx]. apply Nat.eqb_eq in Hx.
    rewrite !(cp_at_split _ R n) by (rewrite setf_length; lia).
    rewrite !fac_setf, !Nat.eqb_refl by lia. rewrite Hx.
    erewrite (bigsum_ext (seq 0 R) (fun r => el A i r * zrow (setf W n A) n x r)) by (intros; rewrite zrow_setf by lia; reflexivity).
    erewrite (bigsum_ext (seq 0 R) (fun r => el H i r * zrow (setf W n H) n x r)) by (intros; rewrite zrow_setf by lia; reflexivity).
    rewrite <- (bigsum_mul_l RL). apply bigsum_ext. intros l _.
    erewrite (bigsum_ext (seq 0 R) (fun r => el A i r * (zrow W n x r * zrow W n x l))).
    2:{ intros r _. instantiate (1 := fun r => (el A i r * zrow W n x r) * zrow W n x l). cbv beta. ring. }
    rewrite (bigsum_mul_r RL). ring.
  - rewrite (bigsum_swap RL), <- (bigsum_opp RL). apply bigsum_ext. intros l Hl. apply in_seq in Hl.
    rewrite (bigsum_mul_r RL), (bigsum_sub RL), (bigsum_swap RL).
    assert (E1 : el (msub (mmul A (hgram W n R)) (mttkrp V W n R)) i l
       = bigsum (seq 0 R) (fun r => el A i r * hgram_at W n r l) - mttkrp_at V W n i l).
    { unfold msub, el at 1. cbn [mmul tabulate lens]. rewrite (is_mat_nrow _ _ _ HA).
      change (ncol (hgram W n R)) with R.
      assert (Hin : inb [nth n (lens V) 0%nat; R] [i; l]) by (apply inb2; lia).
      rewrite at_tabulate by auto. unfold mmul, mttkrp. rewrite (is_mat_nrow _ _ _ HA), (is_mat_ncol _ _ _ HA).
      change (ncol (hgram W n R)) with R. rewrite !at_tabulate by auto. cbn [nth]. f_equal.
      apply bigsum_ext. intros r Hr. apply in_seq in Hr. f_equal. unfold hgram, el. rewrite at_tabulate by (apply inb2; lia). auto. }
    rewrite E1.
    assert (E2 : bigsum P (fun x => at_ V x * zrow W n x l) = mttkrp_at V W n i l).
    { unfold mttkrp_at, zrow. rewrite HL. reflexivity. }
    rewrite E2.
    assert (E3 : bigsum (seq 0 R) (fun y => bigsum P (fun x => el A i y * (zrow W n x y * zrow W n x l)))
       = bigsum (seq 0 R) (fun r => el A i r * hgram_at W n r l)).
    { apply bigsum_ext. intros r _. rewrite (bigsum_mul_l RL). f_equal. unfold P. eapply zrow_gram; eauto. lia. }
    rewrite E3. ring.
Qed.

Lemma cp_at_add W R n A H x rr : n < length W -> nth n x 0%nat < rr -> is_mat A rr R ->
  cp_at (setf W n (madd A H)) R x = cp_at (setf W n A) R x + cp_at (setf W n H) R x.
Proof.
  intros Hn Hx HA. rewrite !(cp_at_split _ R n) by (rewrite setf_length; auto).
  rewrite <- (bigsum_add RL). apply bigsum_ext. intros r Hr. apply in_seq in Hr.
  rewrite !fac_setf, !Nat.eqb_refl, !zrow_setf by auto.
  assert (E : el (madd A H) (nth n x 0%nat) r = el A (nth n x 0%nat) r + el H (nth n x 0%nat) r).
  { unfold madd, el. destruct HA as [E _]. rewrite E. rewrite at_tabulate by (apply inb2; lia). auto. }
  rewrite E. ring.
Qed.

(** the exact expansion of the residual around any value A of factor n *)
Theorem residual_expansion V W R n A H :
  factors_ok V W R -> n < order V ->
  is_mat A (nth n (lens V) 0%nat) R -> is_mat H (nth n (lens V) 0%nat) R ->
  residual2 V (setf W n (madd A H)) R
  = residual2 V (setf W n A) R
    + (n1 + n1) * minner (nth n (lens V) 0%nat) R (msub (mmul A (hgram W n R)) (mttkrp V W n R)) H
    + bigsum (all_idx (lens V)) (fun x => cp_at (setf W n H) R x * cp_at (setf W n H) R x).
Proof.
  intros HW Hn HA HH. pose proof HW as (_ & HL & _).
  pose proof (cross_term V W R n A H HW Hn HA HH) as HC.
  set (I := minner _ _ _ _) in *.
  assert (EI : I = - bigsum (all_idx (lens V)) (fun x => (at_ V x - cp_at (setf W n A) R x) * cp_at (setf W n H) R x)) by (rewrite HC; ring).
  rewrite EI. unfold residual2.
  rewrite <- (bigsum_opp RL), <- (bigsum_mul_l RL), <- !(bigsum_add RL). apply bigsum_ext. intros x Hx.
  apply all_idx_in in Hx.
  rewrite (cp_at_add W R n A H x (nth n (lens V) 0%nat)); auto; [ring|lia|].
  clear -Hx Hn. unfold order in Hn. revert n Hn. induction Hx; intros n Hn; simpl in *; [lia|]. destruct n; auto. apply IHHx. lia.
Qed.

Lemma madd_msub (A B : tensor N) r c : is_mat A r c -> is_mat B r c -> madd A (msub B A) = B.
Proof.
  intros HA HB. apply (mat_ext _ _ r c); auto.
  - split; [destruct HA; auto|apply tabulate_wf].
  - intros i j Hi Hj. unfold madd, msub, el. destruct HA as [EA _], HB as [EB _]. rewrite EA, EB.
    rewrite !at_tabulate by (apply inb2; auto). ring.
Qed.
Lemma msub_mat (A B : tensor N) r c : is_mat B r c -> is_mat (msub B A) r c.
Proof. intros [E _]. split; [auto|apply tabulate_wf]. Qed.

(** the solution of the normal equations is the global minimiser for its mode *)
Theorem normal_eq_minimises (OL : ord_laws N) V W R n A B :
  factors_ok V W R -> n < order V ->
  is_mat A (nth n (lens V) 0%nat) R -> is_mat B (nth n (lens V) 0%nat) R ->
  mmul A (hgram W n R) = mttkrp V W n R ->
  nle (residual2 V (setf W n A) R) (residual2 V (setf W n B) R).
Proof.
  intros HW Hn HA HB HE. rewrite <- (madd_msub A B _ _ HA HB).
  rewrite (residual_expansion V W R n A (msub B A)) by (auto; apply msub_mat; auto).
  set (Q := bigsum _ _). set (I := minner _ _ _ _).
  assert (EI : I = n0).
  { unfold I, minner. apply (bigsum_zero RL). intros i Hi. apply (bigsum_zero RL). intros j Hj. apply in_seq in Hi, Hj.
    rewrite HE. unfold msub at 1, el at 1. cbn [mttkrp tabulate lens].
    rewrite at_tabulate by (apply inb2; lia). ring. }
  rewrite EI. replace (_ + (n1 + n1) * n0 + Q) with (residual2 V (setf W n A) R + Q) by ring.
  apply (le_add_r OL). unfold Q. clear -OL. induction (all_idx (lens V)); simpl; [apply (le_refl OL)|].
  apply (le_add OL); [apply (le_sq OL)|auto].
Qed.
End P.
