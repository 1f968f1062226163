(** C46: sort_indexes *)
From Coq Require Import List ZArith Lia Bool Arith Permutation Sorted.
From Verif Require Import Base Num Tensor MCommon MCP PBase.
Import ListNotations.

Section S.
Context (comp : nat -> nat -> bool).
Lemma linear_insert_perm val rl : Permutation (linear_insert comp val rl) (val :: rl).
Proof.
  induction rl as [|y rl IH]; cbn; auto. destruct (comp val y); auto.
  rewrite IH. apply perm_swap.
Qed.
Lemma insert_step_perm rl val : Permutation (insert_step comp rl val) (val :: rl).
Proof.
  unfold insert_step. destruct (rev rl) as [|f l] eqn:E.
  - assert (rl = []) by (rewrite <- (rev_involutive rl), E; auto). subst. auto.
  - destruct (comp val f); [symmetry; apply Permutation_cons_append|apply linear_insert_perm].
Qed.
Lemma insertion_sort_perm l : Permutation (insertion_sort comp l) l.
Proof.
  unfold insertion_sort. assert (H : forall l rl, Permutation (fold_left (insert_step comp) l rl) (l ++ rl)).
  { clear l. induction l as [|v l IH]; intros rl; cbn; auto. rewrite IH, insert_step_perm. symmetry. apply Permutation_middle. }
  rewrite <- Permutation_rev, H, app_nil_r. auto.
Qed.
(** y may stand to the right of z *)
Let geq y z := comp y z = false.
Hypothesis asym : forall x y, comp x y = true -> comp y x = false.
Hypothesis trans : forall x y z, comp x y = false -> comp y z = false -> comp x z = false.
Lemma linear_insert_sorted val rl : StronglySorted geq rl -> StronglySorted geq (linear_insert comp val rl).
Proof.
  intros H. induction H as [|y rl Hs IH Hy]; cbn; [repeat constructor|].
  destruct (comp val y) eqn:E.
  - constructor; auto. rewrite Forall_forall in *. intros z Hz. apply (Permutation_in _ (linear_insert_perm val rl)) in Hz.
    destruct Hz as [<-|Hz]; [|apply Hy; auto]. apply asym. auto.
  - constructor; [constructor; auto|]. constructor; auto. rewrite Forall_forall in *. intros z Hz.
    apply trans with y; [exact E|]. apply Hy. auto.
Qed.
Lemma sorted_snoc rl v : StronglySorted geq rl -> (forall y, In y rl -> geq y v) -> StronglySorted geq (rl ++ [v]).
Proof.
  intros H Hv. induction H as [|y rl Hs IH Hy]; cbn; [repeat constructor|]. constructor.
  - apply IH. intros; apply Hv; right; auto.
  - rewrite Forall_forall in *. intros z Hz. apply in_app_iff in Hz as [Hz|[<-|[]]]; [apply Hy; auto|]. apply Hv. left; auto.
Qed.
Lemma insert_step_sorted rl val : StronglySorted geq rl -> StronglySorted geq (insert_step comp rl val).
Proof.
  intros H. unfold insert_step. destruct (rev rl) as [|f l] eqn:E; [repeat constructor|].
  destruct (comp val f) eqn:Ec; [|apply linear_insert_sorted; auto].
  apply sorted_snoc; auto. assert (Er : rl = rev l ++ [f]) by (rewrite <- (rev_involutive rl), E; auto).
  assert (Hf : forall y, In y (rev l) -> geq y f).
  { rewrite Er in H. clear -H. induction (rev l) as [|z m IH]; [intros y []|]. cbn in H. inversion H as [|? ? Hs Hy]; subst.
    intros y [<-|Hin]; [|apply IH; auto]. rewrite Forall_forall in Hy. apply Hy. apply in_app_iff. right; left; auto. }
  intros y Hy. rewrite Er in Hy. apply in_app_iff in Hy as [Hy|[<-|[]]]; [|apply asym; auto].
  apply trans with f; [apply Hf; auto|]. apply asym. auto.
Qed.
Lemma fold_sorted l rl : StronglySorted geq rl -> StronglySorted geq (fold_left (insert_step comp) l rl).
Proof. revert rl. induction l as [|v l IH]; intros rl H; cbn; auto. apply IH, insert_step_sorted. auto. Qed.
Lemma sorted_nth rl : StronglySorted geq rl -> forall i j, i < j < length rl -> geq (nth i rl 0) (nth j rl 0).
Proof.
  intros H. induction H as [|y rl Hs IH Hy]; intros i j Hij; cbn in Hij; [lia|].
  destruct j; [lia|]. destruct i; cbn.
  - rewrite Forall_forall in Hy. apply Hy, nth_In. lia.
  - apply IH. lia.
Qed.
Lemma insertion_sort_sorted l i j : i < j < length l ->
  comp (nth j (insertion_sort comp l) 0) (nth i (insertion_sort comp l) 0) = false.
Proof.
  intros Hij. assert (HL : length (fold_left (insert_step comp) l []) = length l).
  { rewrite <- (Permutation_length (insertion_sort_perm l)). unfold insertion_sort. rewrite rev_length. auto. }
  unfold insertion_sort. rewrite !rev_nth by lia. apply sorted_nth; [apply fold_sorted; constructor|lia].
Qed.
End S.
(** sorting an ascending list with a comparator that never says yes changes nothing *)
Lemma insertion_sort_id comp l : (forall x y, In x l -> In y l -> comp x y = false) -> insertion_sort comp l = l.
Proof.
  intros H. unfold insertion_sort. assert (G : forall l rl, (forall x y, In x (l ++ rl) -> In y (l ++ rl) -> comp x y = false) -> fold_left (insert_step comp) l rl = rev l ++ rl).
  { clear. induction l as [|v l IH]; intros rl H; auto. cbn [fold_left]. assert (E : insert_step comp rl v = v :: rl).
    { unfold insert_step. destruct (rev rl) as [|f m] eqn:E.
      - assert (rl = []) by (rewrite <- (rev_involutive rl), E; auto). subst. auto.
      - rewrite H; [|left; auto|right; apply in_app_iff; right; apply in_rev; rewrite E; left; auto].
        destruct rl as [|y rl]; auto. cbn. rewrite H; auto; [left; auto|right; apply in_app_iff; right; left; auto]. }
    rewrite E, IH.
    - cbn. rewrite <- app_assoc. reflexivity.
    - intros x y Hx Hy. apply H; cbn; rewrite in_app_iff in *; cbn in *; tauto. }
  rewrite G; [rewrite app_nil_r, rev_involutive; auto|]. intros x y. rewrite app_nil_r. auto.
Qed.

(** ** C46.  Model of std::sort for at most 16 elements (libstdc++ insertion sort).
    Whatever the values (also with NaN-like incomparable ones) the result is a permutation of 0 .. n-1 *)
Theorem C46_permutation :
  forall (N : num) (v : list N), Permutation (sort_indexes v) (seq 0 (length v)).
Proof. intros. apply insertion_sort_perm. Qed.
Print Assumptions C46_permutation.
(** and if <= is transitive on the values, they are in decreasing order *)
Theorem C46_decreasing :
  forall (N : num), lt_asym N -> (forall x y z : N, nle x y -> nle y z -> nle x z) ->
  forall (v : list N) (i j : nat), i < j < length v ->
  nle (nth (nth j (sort_indexes v) 0) v n0) (nth (nth i (sort_indexes v) 0) v n0).
Proof.
  intros N Has Htr v i j Hij. unfold nle. 
  apply (insertion_sort_sorted (fun i1 i2 => nltb (nth i2 v n0) (nth i1 v n0))).
  - intros x y. apply Has.
  - intros x y z H1 H2. exact (Htr _ _ _ H1 H2).
  - rewrite seq_length. auto.
Qed.
Print Assumptions C46_decreasing.
(** ties keep their order: with all values equal the result is 0, 1, .., n-1 *)
Theorem C46_ties :
  forall (N : num), lt_asym N -> forall (a : N) (n : nat), sort_indexes (repeat a n) = seq 0 n.
Proof.
  intros N Has a n. unfold sort_indexes. rewrite repeat_length. apply insertion_sort_id.
  intros x y Hx Hy. apply in_seq in Hx, Hy.
  assert (E : forall k, k < n -> nth k (repeat a n) n0 = a) by (intros k Hk; rewrite (nth_indep _ n0 a) by (rewrite repeat_length; auto); apply nth_repeat).
  rewrite !E by lia. destruct (nltb a a) eqn:El; auto. rewrite (Has _ _ El) in El. discriminate.
Qed.
Print Assumptions C46_ties.
Theorem C46_case : sort_indexes ([3; 5; 1; 5; 4]%Z : list Znum) = [1; 3; 4; 0; 2] /\ lt_asym Znum /\ (forall x y z : Znum, nle x y -> nle y z -> nle x z).
Proof.
  split; [reflexivity|]. split; [|apply (le_trans Znum_ord)].
  intros x y. cbn. rewrite Z.ltb_lt, Z.ltb_ge. lia.
Qed.
