(** The fit identity of a Tucker decomposition with orthonormal factors, and the norm of the core as a quadratic form in one
    factor.  Mathematics about Spec7.v and Spec18.v; no model function is used here. *)
From Coq Require Import List ZArith Lia Bool Arith Permutation Ring.
From Verif Require Import Base Num Tensor Spec Spec7 Spec18 PBase PTensor PSum PPart PMat PMatAlg PMttkrp PGrad PResid PTtm PTucker.
Import ListNotations.

Section P.
Context {N : num} (RL : ring_laws N).
Let RT : ring_theory (@n0 N) n1 nadd nmul nsub nopp (@eq N) := RL.
Add Ring Nring : RT.
Local Open Scope num_scope.
Implicit Types (V : tensor N) (W : list (tensor N)).

Definition tpr (o : nat) (W : list (tensor N)) (x y : list nat) : N :=
  bigprod (seq 0 o) (fun m => el (fac W m) (nth m x 0%nat) (nth m y 0%nat)).

Lemma ttmc_all_at V W y : inb (ttmc_lens V W (seq 0 (order V))) y ->
  at_ (ttmc V W (seq 0 (order V))) y = bigsum (all_idx (lens V)) (fun x => at_ V x * tpr (order V) W x y).
Proof.
  intros Hy. unfold ttmc. rewrite at_tabulate by auto. unfold ttmc_at. fold (agree (order V) (seq 0 (order V)) y).
  rewrite (bigsum_filter RL). apply bigsum_ext. intros x _.
  assert (E : agree (order V) (seq 0 (order V)) y x = true).
  { apply agree_spec. intros m Hm Hn. exfalso. apply Hn. apply in_seq. lia. }
  rewrite E. reflexivity.
Qed.
Lemma core_lens V W ranks : tucker_ok V W ranks -> lens (tucker_core V W) = ranks.
Proof.
  intros (_ & _ & Hr & HW). cbn [tucker_core ttmc tabulate lens].
  apply nth_eq_ext with (d:=0%nat); [rewrite ttmc_lens_length; auto|]. rewrite ttmc_lens_length. intros m Hm.
  rewrite ttmc_lens_nth by auto. rewrite existsb_yes by (apply in_seq; lia). apply (is_mat_ncol _ _ _ (HW m Hm)).
Qed.
Lemma core_order V W : order (tucker_core V W) = order V.
Proof. unfold tucker_core. apply ttmc_order. Qed.
Lemma core_wf V W : wf (tucker_core V W).
Proof. apply ttmc_wf. Qed.
Lemma fac_mtrans W m : (m < length W)%nat -> fac (map mtrans W) m = mtrans (fac W m).
Proof. intros H. unfold fac. rewrite nth_map_lt with (d:=tnil) by auto. auto. Qed.
Lemma full_lens V W ranks : tucker_ok V W ranks -> lens (tucker_full (tucker_core V W) W) = lens V.
Proof.
  intros H. pose proof H as (_ & HL & Hr & HW). cbn [tucker_full]. unfold tucker_full. rewrite core_order.
  cbn [ttmc tabulate lens]. apply nth_eq_ext with (d:=0%nat); [rewrite ttmc_lens_length, core_order; auto|].
  rewrite ttmc_lens_length, core_order. intros m Hm. rewrite ttmc_lens_nth by (rewrite core_order; auto).
  rewrite existsb_yes by (apply in_seq; lia). rewrite fac_mtrans by lia. cbn [mtrans tabulate ncol lens nth].
  apply (is_mat_nrow _ _ _ (HW m Hm)).
Qed.
Lemma full_at V W ranks x : tucker_ok V W ranks -> inb (lens V) x ->
  at_ (tucker_full (tucker_core V W) W) x = bigsum (all_idx ranks) (fun y => at_ (tucker_core V W) y * tpr (order V) W x y).
Proof.
  intros H Hx. pose proof H as (_ & HL & Hr & HW). unfold tucker_full. rewrite ttmc_all_at.
  2:{ pose proof (full_lens V W ranks H) as E. unfold tucker_full in E. cbn [ttmc tabulate lens] in E. rewrite E. auto. }
  rewrite (core_lens V W ranks H), core_order. apply bigsum_ext. intros y Hy. apply all_idx_in in Hy. f_equal.
  unfold tpr. apply bigprod_ext. intros m Hm. apply in_seq in Hm. rewrite fac_mtrans by lia.
  apply (el_mtrans _ _ _ _ _ (HW m ltac:(lia))); apply inb_nth; auto; unfold order in *; lia.
Qed.

(** columns *)
Lemma ortho_gram (A : tensor N) r k : is_mat A r k -> ortho_cols A k -> forall a b, (a < k)%nat -> (b < k)%nat ->
  bigsum (seq 0 r) (fun i => el A i a * el A i b) = if Nat.eqb a b then n1 else n0.
Proof.
  intros HA H a b Ha Hb. assert (E : el (mmul (mtrans A) A) a b = el (mid k) a b) by (rewrite H; auto).
  rewrite (el_mmul _ _ k r k) in E by (auto; apply mtrans_mat; auto). unfold mid in E. rewrite el_mdiag in E by auto. rewrite <- E.
  apply bigsum_ext. intros i Hi. apply in_seq in Hi. rewrite (el_mtrans _ _ _ _ _ HA) by lia. auto.
Qed.
Lemma gram_ortho (A : tensor N) r k : is_mat A r k -> (forall a b, (a < k)%nat -> (b < k)%nat ->
  bigsum (seq 0 r) (fun i => el A i a * el A i b) = if Nat.eqb a b then n1 else n0) -> ortho_cols A k.
Proof.
  intros HA H. unfold ortho_cols. assert (HT : is_mat (mtrans A) k r) by (apply mtrans_mat; auto).
  apply (mat_ext _ _ k k); [eapply mmul_mat; eauto|apply mdiag_mat|]. intros a b Ha Hb.
  rewrite (el_mmul _ _ k r k) by auto. unfold mid. rewrite el_mdiag by auto. rewrite <- H by auto.
  apply bigsum_ext. intros i Hi. apply in_seq in Hi. rewrite (el_mtrans _ _ _ _ _ HA) by lia. auto.
Qed.

Lemma bigprod_one {X} (l : list X) (f : X -> N) : (forall x, In x l -> f x = n1) -> bigprod l f = n1.
Proof. intros H. induction l as [|a l IH]; [reflexivity|]. rewrite bigprod_cons, H, IH by (try (left; reflexivity); intros; apply H; right; auto). ring. Qed.
Lemma bigprod_zero {X} (l : list X) (f : X -> N) a : In a l -> f a = n0 -> bigprod l f = n0.
Proof. intros H E. induction l as [|b l IH]; [destruct H|]. rewrite bigprod_cons. destruct H as [->|H]; [rewrite E|rewrite IH by auto]; ring. Qed.

Lemma tpr_gram V W ranks y z : tucker_ok V W ranks -> ortho_factors W ranks -> inb ranks y -> inb ranks z ->
  bigsum (all_idx (lens V)) (fun x => tpr (order V) W x y * tpr (order V) W x z) = if list_eq_dec Nat.eq_dec y z then n1 else n0.
Proof.
  intros (HV & HL & Hr & HW) HO Hy Hz.
  set (g := fun m i => el (fac W m) i (nth m y 0%nat) * el (fac W m) i (nth m z 0%nat)).
  transitivity (bigsum (all_idx (lens V)) (fun x => bigprod (seq 0 (length (lens V))) (fun m => g m (nth m x 0%nat)))).
  { apply bigsum_ext. intros x _. unfold tpr. rewrite <- (bigprod_mul RL). reflexivity. }
  rewrite (sum_prod RL (lens V) g).
  assert (E : forall m, (m < length (lens V))%nat ->
    bigsum (seq 0 (nth m (lens V) 0%nat)) (g m)
    = if Nat.eqb (nth m y 0%nat) (nth m z 0%nat) then n1 else n0).
  { intros m Hm. unfold g. apply (ortho_gram _ _ _ (HW m Hm)).
    - apply HO. unfold order in *. lia.
    - apply inb_nth; auto. unfold order in *; lia.
    - apply inb_nth; auto. unfold order in *; lia. }
  destruct (list_eq_dec Nat.eq_dec y z) as [->|Hne].
  - apply bigprod_one. intros m Hm. apply in_seq in Hm. rewrite E by lia. rewrite Nat.eqb_refl. auto.
  - assert (exists m, (m < length ranks)%nat /\ nth m y 0%nat <> nth m z 0%nat) as (m & Hm & Hd).
    { destruct (List.Forall_Exists_dec (fun m => nth m y 0%nat = nth m z 0%nat)
        (fun m => Nat.eq_dec (nth m y 0%nat) (nth m z 0%nat)) (seq 0 (length ranks))) as [Ha|He].
      - exfalso. apply Hne. apply nth_eq_ext with (d:=0%nat); [rewrite (inb_length _ _ Hy), (inb_length _ _ Hz); auto|].
        rewrite (inb_length _ _ Hy). intros i Hi. rewrite Forall_forall in Ha. apply Ha. apply in_seq. lia.
      - apply Exists_exists in He as (m & Hm & Hd). apply in_seq in Hm. exists m. split; [lia|auto]. }
    apply (bigprod_zero _ _ m); [apply in_seq; unfold order in *; lia|]. rewrite E by (unfold order in *; lia).
    rewrite (proj2 (Nat.eqb_neq _ _)); auto.
Qed.

Lemma sumsq_core V W ranks : tucker_ok V W ranks ->
  sumsq (tucker_core V W) = bigsum (all_idx (lens V)) (fun x => at_ V x * at_ (tucker_full (tucker_core V W) W) x).
Proof.
  intros H. unfold sumsq. rewrite (core_lens V W ranks H).
  transitivity (bigsum (all_idx ranks) (fun y => bigsum (all_idx (lens V)) (fun x => at_ V x * (at_ (tucker_core V W) y * tpr (order V) W x y)))).
  - apply bigsum_ext. intros y Hy. apply all_idx_in in Hy. unfold tucker_core at 1. rewrite ttmc_all_at.
    2:{ pose proof (core_lens V W ranks H) as E. unfold tucker_core in E. cbn [ttmc tabulate lens] in E. rewrite E. auto. }
    rewrite <- (bigsum_mul_r RL). apply bigsum_ext. intros x _. ring.
  - rewrite (bigsum_swap RL). apply bigsum_ext. intros x Hx. apply all_idx_in in Hx. rewrite (full_at V W ranks x) by auto.
    rewrite (bigsum_mul_l RL). auto.
Qed.
Lemma sumsq_full V W ranks : tucker_ok V W ranks -> ortho_factors W ranks ->
  bigsum (all_idx (lens V)) (fun x => at_ (tucker_full (tucker_core V W) W) x * at_ (tucker_full (tucker_core V W) W) x)
  = sumsq (tucker_core V W).
Proof.
  intros H HO. set (c := tucker_core V W).
  transitivity (bigsum (all_idx (lens V)) (fun x => bigsum (all_idx ranks) (fun y => bigsum (all_idx ranks) (fun z =>
     (at_ c y * at_ c z) * (tpr (order V) W x y * tpr (order V) W x z))))).
  - apply bigsum_ext. intros x Hx. apply all_idx_in in Hx. unfold c. rewrite (full_at V W ranks x) by auto.
    rewrite <- (bigsum_mul_r RL). apply bigsum_ext. intros y _. rewrite <- (bigsum_mul_l RL). apply bigsum_ext. intros z _. ring.
  - rewrite (bigsum_swap RL). unfold sumsq. rewrite (core_lens V W ranks H : lens c = _). apply bigsum_ext. intros y Hy.
    rewrite (bigsum_swap RL).
    transitivity (bigsum (all_idx ranks) (fun z => if list_eq_dec Nat.eq_dec y z then at_ c y * at_ c z else n0)).
    + apply bigsum_ext. intros z Hz. rewrite (bigsum_mul_l RL). rewrite (tpr_gram V W ranks) by (auto; apply all_idx_in; auto).
      destruct (list_eq_dec Nat.eq_dec y z); ring.
    + rewrite (bigsum_single RL _ _ y); auto.
      * destruct (list_eq_dec Nat.eq_dec y y); [auto|congruence].
      * apply all_idx_nodup.
      * intros z _ Hz. destruct (list_eq_dec Nat.eq_dec y z); [congruence|auto].
Qed.
(** the fit identity: with orthonormal factors, the squared distance is |V|^2 - |core|^2 *)
Theorem fit_identity V W ranks : tucker_ok V W ranks -> ortho_factors W ranks ->
  tucker_resid2 V W = sumsq V - sumsq (tucker_core V W).
Proof.
  intros H HO. unfold tucker_resid2. set (F := tucker_full (tucker_core V W) W).
  assert (L : lens F = lens V) by (apply (full_lens V W ranks H)).
  unfold sumsq at 1. cbn [msub tabulate lens]. rewrite L.
  transitivity (bigsum (all_idx (lens V)) (fun x => (at_ F x * at_ F x - at_ V x * at_ F x) - (at_ V x * at_ F x - at_ V x * at_ V x))).
  - apply bigsum_ext. intros x Hx. apply all_idx_in in Hx. unfold msub. rewrite at_tabulate by (rewrite L; auto). ring.
  - rewrite !(bigsum_sub RL). unfold F. rewrite (sumsq_full V W ranks) by auto. rewrite <- (sumsq_core V W ranks) by auto.
    fold (sumsq V). ring.
Qed.

(** *** the norm of the core as a quadratic form in the factor of mode n *)
Lemma fiber_shift ls n (F : list nat -> N) : (n < length ls)%nat ->
  bigsum (all_idx ls) F = bigsum (all_idx (lset ls n 1%nat)) (fun x => bigsum (seq 0 (nth n ls 0%nat)) (fun j => F (lset x n j))).
Proof.
  revert n F. induction ls as [|l ls IH]; intros n F Hn; [simpl in Hn; lia|]. destruct n as [|n].
  - cbn [lset all_idx nth]. rewrite !(bigsum_flat_map RL). apply bigsum_ext. intros t _. rewrite !bigsum_map. cbn [seq].
    cbn [bigsum fold_right map lset]. fold (bigsum (seq 0 l) (fun j => F (j :: t))). ring.
  - cbn [lset all_idx nth]. rewrite !(bigsum_flat_map RL).
    rewrite (IH n (fun t => bigsum (map (fun i => i :: t) (seq 0 l)) F)) by (simpl in Hn; lia).
    apply bigsum_ext. intros t _. rewrite bigsum_map. cbn [lset].
    erewrite bigsum_ext by (intros j _; rewrite bigsum_map; reflexivity). rewrite (bigsum_swap RL). auto.
Qed.
Lemma sumsq_ttm (Y U : tensor N) n k : (n < order Y)%nat -> is_mat U (nth n (lens Y) 0%nat) k ->
  sumsq (ttm Y U n) = bigsum (seq 0 k) (fun j => bigsum (seq 0 (nth n (lens Y) 0%nat)) (fun a =>
     bigsum (seq 0 (nth n (lens Y) 0%nat)) (fun b => el U a j * el (unfold_gram Y n) a b * el U b j))).
Proof.
  intros Hn HU. set (l := nth n (lens Y) 0%nat) in *. unfold sumsq. rewrite ttm_lens, (is_mat_ncol _ _ _ HU).
  rewrite (fiber_shift (lset (lens Y) n k) n) by (rewrite lset_length; auto).
  rewrite lset_same by auto. rewrite lset_lset. rewrite (bigsum_swap RL). apply bigsum_ext. intros j Hj. apply in_seq in Hj.
  transitivity (bigsum (all_idx (lset (lens Y) n 1%nat)) (fun x => bigsum (seq 0 l) (fun a => bigsum (seq 0 l) (fun b =>
     (el U a j * el U b j) * (at_ Y (lset x n a) * at_ Y (lset x n b)))))).
  - apply bigsum_ext. intros x Hx. apply all_idx_in in Hx.
    assert (Lx : length x = length (lens Y)) by (rewrite (inb_length _ _ Hx), lset_length; auto).
    assert (E : at_ (ttm Y U n) (lset x n j) = bigsum (seq 0 l) (fun a => at_ Y (lset x n a) * el U a j)).
    { rewrite ttm_at.
      - fold l. rewrite lset_same by (rewrite Lx; auto). apply bigsum_ext. intros a _. rewrite lset_lset. auto.
      - rewrite (is_mat_ncol _ _ _ HU). apply (inb_lset _ _ n k j) in Hx; [|lia]. rewrite lset_lset in Hx. auto. }
    rewrite E. rewrite <- (bigsum_mul_r RL). apply bigsum_ext. intros a _. rewrite <- (bigsum_mul_l RL). apply bigsum_ext. intros b _. ring.
  - rewrite (bigsum_swap RL). apply bigsum_ext. intros a Ha. apply in_seq in Ha. rewrite (bigsum_swap RL). apply bigsum_ext. intros b Hb.
    apply in_seq in Hb. rewrite (bigsum_mul_l RL). unfold unfold_gram, el at 4. fold l. rewrite at_tabulate by (apply inb2; lia).
    cbn [nth]. unfold unfold_gram_at. ring.
Qed.
Lemma core_ttm V W n : (n < order V)%nat -> tucker_core V W = ttm (ttmc V W (others n (order V))) (fac W n) n.
Proof.
  intros Hn. rewrite (ttm_ttmc RL); auto.
  - unfold tucker_core. apply (ttmc_perm RL). apply Permutation_sym. apply (others_perm n (order V) Hn).
  - intros Hi. apply others_in in Hi. lia.
Qed.
Lemma ttmc_others_setf V W n A : (n < length W)%nat -> ttmc V (setf W n A) (others n (order V)) = ttmc V W (others n (order V)).
Proof.
  intros Hn. apply ttmc_ext. intros m Hm. apply others_in in Hm. rewrite fac_setf by auto. destruct (Nat.eqb_spec m n); [lia|auto].
Qed.
Lemma request_lens V W n : (n < order V)%nat -> nth n (lens (ttmc V W (others n (order V)))) 0%nat = nth n (lens V) 0%nat.
Proof.
  intros Hn. cbn [ttmc tabulate lens]. rewrite ttmc_lens_nth by auto. rewrite existsb_not; auto. intros Hi. apply others_in in Hi. lia.
Qed.
Theorem core_quadratic V W n U k : (n < order V)%nat -> (n < length W)%nat -> is_mat U (nth n (lens V) 0%nat) k ->
  sumsq (tucker_core V (setf W n U)) = bigsum (seq 0 k) (fun j => bigsum (seq 0 (nth n (lens V) 0%nat)) (fun a =>
     bigsum (seq 0 (nth n (lens V) 0%nat)) (fun b => el U a j * el (hooi_request V W n) a b * el U b j))).
Proof.
  intros Hn HL HU. rewrite (core_ttm V _ n Hn), ttmc_others_setf by auto. rewrite fac_setf, Nat.eqb_refl by auto.
  rewrite (sumsq_ttm _ _ n k).
  - rewrite request_lens by auto. reflexivity.
  - rewrite ttmc_order. auto.
  - rewrite request_lens by auto. auto.
Qed.
End P.
