(** The dimension tree built by Construct_Dimension_Tree *)
From Coq Require Import List ZArith Lia Bool Arith ZifyNat.
From Verif Require Import Base Num Tensor Spec MCommon PBase.
Import ListNotations.
#[local] Ltac Zify.zify_post_hook ::= Z.to_euclidean_division_equations.

(** [tsub A B x y pa pb sa sb]: in the tree over the modes A..B the node x..y has parent pa..pb and
    sibling sa..sb *)
Inductive tsub : nat -> nat -> nat -> nat -> nat -> nat -> nat -> nat -> Prop :=
| ts_left A B m : A < B -> m = (A + B) / 2 -> tsub A B A m A B (m + 1) B
| ts_right A B m : A < B -> m = (A + B) / 2 -> tsub A B (m + 1) B A B A m
| ts_inl A B m x y pa pb sa sb : A < B -> m = (A + B) / 2 -> tsub A m x y pa pb sa sb -> tsub A B x y pa pb sa sb
| ts_inr A B m x y pa pb sa sb : A < B -> m = (A + B) / 2 -> tsub (m + 1) B x y pa pb sa sb -> tsub A B x y pa pb sa sb.

Lemma tsub_bounds A B x y pa pb sa sb : tsub A B x y pa pb sa sb ->
  A <= pa /\ pa <= x /\ x <= y /\ y <= pb /\ pb <= B /\ pa < pb /\
  ((pa = x /\ y = (pa + pb) / 2 /\ sa = y + 1 /\ sb = pb /\ y < pb) \/
   (sa = pa /\ sb = (pa + pb) / 2 /\ x = sb + 1 /\ y = pb /\ pa < x)).
Proof. induction 1; subst; lia. Qed.
Lemma tsub_len A B x y pa pb sa sb : tsub A B x y pa pb sa sb -> y + 1 - x <= (B - A + 2) / 2.
Proof. induction 1; subst; try lia;
  apply tsub_bounds in H1; lia. Qed.
(** the node is a child of the root iff its parent is the root; otherwise the parent is a node *)
Lemma tsub_up A B x y pa pb sa sb : tsub A B x y pa pb sa sb ->
  (pa = A /\ pb = B) \/ (y + 1 - x <= ((B - A + 2) / 2 + 1) / 2 /\ exists a b c d, tsub A B pa pb a b c d).
Proof.
  induction 1; subst; auto; right.
  - pose proof (tsub_bounds _ _ _ _ _ _ _ _ H1) as Hb. pose proof (tsub_len _ _ _ _ _ _ _ _ H1) as Hl.
    split; [lia|]. destruct IHtsub as [(-> & ->)|(_ & a & b & c & d & Hs)].
    + do 4 eexists. apply ts_left; auto.
    + do 4 eexists. eapply ts_inl; eauto.
  - pose proof (tsub_bounds _ _ _ _ _ _ _ _ H1) as Hb. pose proof (tsub_len _ _ _ _ _ _ _ _ H1) as Hl.
    split; [lia|]. destruct IHtsub as [(-> & ->)|(_ & a & b & c & d & Hs)].
    + do 4 eexists. apply ts_right; auto.
    + do 4 eexists. eapply ts_inr; eauto.
Qed.
Lemma tsub_sym A B x y pa pb sa sb : tsub A B x y pa pb sa sb -> tsub A B sa sb pa pb x y.
Proof.
  induction 1.
  - eapply ts_right; auto.
  - eapply ts_left; auto.
  - eapply ts_inl; eauto.
  - eapply ts_inr; eauto.
Qed.
Lemma tsub_leaf A B m : A <= m <= B -> A < B -> exists pa pb sa sb, tsub A B m m pa pb sa sb.
Proof.
  intros Hm. remember (B - A) as n eqn:E. revert A B Hm E.
  induction n as [n IH] using lt_wf_ind. intros A B Hm E Hlt.
  set (mid := (A + B) / 2). assert (A <= mid < B) by (subst mid; lia).
  destruct (Nat.leb_spec m mid).
  - destruct (Nat.eq_dec A mid).
    + assert (m = A) as -> by lia. exists A, B, (mid + 1), B. assert (Ht := ts_left A B mid Hlt eq_refl). rewrite <- e in Ht at 1. auto.
    + destruct (IH (mid - A)) with (A:=A) (B:=mid) as (pa & pb & sa & sb & Hs); try lia.
      do 4 eexists. eapply ts_inl; eauto.
  - destruct (Nat.eq_dec (mid + 1) B).
    + assert (m = B) as -> by lia. exists A, B, A, mid. assert (Ht := ts_right A B mid Hlt eq_refl). rewrite e in Ht. auto.
    + destruct (IH (B - (mid + 1))) with (A:=mid + 1) (B:=B) as (pa & pb & sa & sb & Hs); try lia.
      do 4 eexists. eapply ts_inr; eauto.
Qed.
Lemma tsub_fun A B x y pa pb sa sb pa' pb' sa' sb' :
  tsub A B x y pa pb sa sb -> tsub A B x y pa' pb' sa' sb' -> pa = pa' /\ pb = pb' /\ sa = sa' /\ sb = sb'.
Proof.
  intros H. revert pa' pb' sa' sb'. induction H; subst; intros pa' pb' sa' sb' H'; inversion H'; subst; try lia; eauto;
  repeat match goal with H : tsub _ _ _ _ _ _ _ _ |- _ => apply tsub_bounds in H end; lia.
Qed.

Lemma tsub_inv A B x y pa pb sa sb : tsub A B x y pa pb sa sb ->
  let m := (A + B) / 2 in
  (x = A /\ y = m /\ pa = A /\ pb = B /\ sa = m + 1 /\ sb = B) \/
  (x = m + 1 /\ y = B /\ pa = A /\ pb = B /\ sa = A /\ sb = m) \/
  tsub A m x y pa pb sa sb \/ tsub (m + 1) B x y pa pb sa sb.
Proof. destruct 1; subst; cbv zeta; auto 10. Qed.

(** range_str is injective *)
Lemma range_str_length a b : length (range_str a b) = b + 1 - a.
Proof. unfold range_str. rewrite map_length, seq_length. auto. Qed.
Lemma range_str_inj a b c d : a <= b -> b <= 30 -> d <= 30 -> range_str a b = range_str c d -> a = c /\ b = d.
Proof.
  intros H1 H2 H3 E. assert (Hl := f_equal (@length Z) E). rewrite !range_str_length in Hl.
  unfold range_str in E. apply map_chr_inj_len in E.
  - destruct (b + 1 - a) as [|n] eqn:E1; [lia|]. rewrite <- Hl in E. injection E as -> _. lia.
  - apply Forall_forall. intros i Hi. apply in_seq in Hi. lia.
  - apply Forall_forall. intros i Hi. apply in_seq in Hi. lia.
Qed.

Definition tree_ext (ps : smap str * smap str) (A B : nat) (ps' : smap str * smap str) : Prop :=
  (forall x y pa pb sa sb, tsub A B x y pa pb sa sb ->
     fst ps' (range_str x y) = Some (range_str pa pb) /\ snd ps' (range_str x y) = Some (range_str sa sb)) /\
  (forall s, (forall x y pa pb sa sb, tsub A B x y pa pb sa sb -> s <> range_str x y) ->
     fst ps' s = fst ps s /\ snd ps' s = snd ps s).

Lemma range_one a : range_str a a = [chr a].
Proof. unfold range_str. replace (a + 1 - a) with 1 by lia. reflexivity. Qed.

Lemma range_ne a b c d : a <= b -> b <= 30 -> d <= 30 -> a <> c \/ b <> d -> range_str a b <> range_str c d.
Proof. intros H1 H2 H3 H4 E. apply range_str_inj in E; auto. lia. Qed.

Theorem CDT_ok fuel ps A B : A <= B -> B <= 30 -> B - A < fuel ->
  exists ps', Construct_Dimension_Tree fuel ps A B = Ok ps' /\ tree_ext ps A B ps'.
Proof.
  revert ps A B. induction fuel as [|fuel IH]; intros ps A B HAB HB Hf; [lia|].
  cbn [Construct_Dimension_Tree].
  destruct (Nat.eqb_spec B A) as [->|Hne].
  { exists ps. split; auto. split; [|auto]. intros x y pa pb sa sb H. apply tsub_bounds in H. lia. }
  destruct ps as [parent sibling].
  destruct (Nat.eqb_spec B (A + 1)) as [->|Hne2].
  { eexists. split; [reflexivity|]. rewrite <- !range_one. split.
    - intros x y pa pb sa sb H. cbn [fst snd].
      assert (Hb := tsub_bounds _ _ _ _ _ _ _ _ H).
      assert ((x = A /\ y = A /\ pa = A /\ pb = A + 1 /\ sa = A + 1 /\ sb = A + 1) \/
              (x = A + 1 /\ y = A + 1 /\ pa = A /\ pb = A + 1 /\ sa = A /\ sb = A)) as [(->&->&->&->&->&->)|(->&->&->&->&->&->)] by lia.
      + rewrite !(sput_neq _ (range_str (A+1) (A+1))) by (apply range_ne; lia). rewrite !sput_eq. auto.
      + rewrite !sput_eq. auto.
    - intros s Hs. cbn [fst snd].
      assert (s <> range_str A A).
      { eapply Hs. apply (ts_left A (A + 1) A); lia. }
      assert (s <> range_str (A + 1) (A + 1)).
      { eapply Hs. apply (ts_right A (A + 1) A); lia. }
      rewrite !sput_neq by auto. auto. }
  set (m := (A + B) / 2). assert (Hm : A <= m < B) by (subst m; lia).
  destruct (IH (sput parent (range_str A m) (range_str A B), sput sibling (range_str A m) (range_str (m + 1) B)) A m)
    as ([p1 s1] & E1 & T1 & U1); [lia..|].
  rewrite E1. cbn [bind].
  destruct (IH (sput p1 (range_str (m + 1) B) (range_str A B), sput s1 (range_str (m + 1) B) (range_str A m)) (m + 1) B)
    as ([p2 s2] & E2 & T2 & U2); [lia..|].
  rewrite E2. eexists. split; [reflexivity|]. cbn [fst snd] in *.
  assert (HL : A < B) by lia.
  assert (Hdis : forall x y, A <= x -> x <= y -> y <= m -> forall x' y' pa pb sa sb, tsub (m + 1) B x' y' pa pb sa sb -> range_str x y <> range_str x' y').
  { intros x y H1 H2 H3 x' y' pa pb sa sb H. apply tsub_bounds in H. apply range_ne; lia. }
  split.
  - intros x y pa pb sa sb H. apply tsub_inv in H. cbv zeta in H. fold m in H. cbn [fst snd].
    destruct H as [(->&->&->&->&->&->)|[(->&->&->&->&->&->)|[H2|H2]]].
    + destruct (U2 (range_str A m)) as [-> ->].
      { intros. eapply Hdis; eauto; lia. }
      rewrite !sput_neq by (apply range_ne; lia).
      destruct (U1 (range_str A m)) as [-> ->].
      { intros x y pa pb sa sb Ht. apply tsub_bounds in Ht. apply range_ne; lia. }
      rewrite !sput_eq. auto.
    + destruct (U2 (range_str (m + 1) B)) as [-> ->].
      { intros x y pa pb sa sb Ht. apply tsub_bounds in Ht. apply range_ne; lia. }
      rewrite !sput_eq. auto.
    + pose proof (tsub_bounds _ _ _ _ _ _ _ _ H2).
      destruct (U2 (range_str x y)) as [-> ->].
      { intros. eapply Hdis; eauto; lia. }
      rewrite !sput_neq by (apply range_ne; lia). apply T1; auto.
    + apply T2; auto.
  - intros s Hs. cbn [fst snd].
    destruct (U2 s) as [-> ->]. { intros. eapply Hs. eapply ts_inr; eauto. }
    rewrite !sput_neq. 2,3: eapply Hs; eapply ts_right; auto.
    destruct (U1 s) as [-> ->]. { intros. eapply Hs. eapply ts_inl; eauto. }
    rewrite !sput_neq by (eapply Hs; eapply ts_left; auto). auto.
Qed.

(** the maps of the whole tree *)
Definition tree_maps (o : nat) (parent sibling : smap str) : Prop :=
  tree_ext (sempty, sempty) 0 (o - 1) (parent, sibling).
Lemma tree_build o fuel : 1 <= o <= 31 -> o <= fuel ->
  exists parent sibling, Construct_Dimension_Tree fuel (sempty, sempty) 0 (o - 1) = Ok (parent, sibling) /\
    tree_maps o parent sibling.
Proof.
  intros. destruct (CDT_ok fuel (sempty, sempty) 0 (o - 1)) as ([p s] & E & T); [lia..|]. eauto.
Qed.
Lemma tsub_dec A B s : (exists x y pa pb sa sb, tsub A B x y pa pb sa sb /\ s = range_str x y) \/
  (forall x y pa pb sa sb, tsub A B x y pa pb sa sb -> s <> range_str x y).
Proof.
  remember (B - A) as n eqn:E. revert A B E. induction n as [n IH] using lt_wf_ind. intros A B E.
  destruct (Nat.ltb_spec A B) as [HL|HL].
  2:{ right. intros x y pa pb sa sb H. apply tsub_bounds in H. lia. }
  set (m := (A + B) / 2). assert (A <= m < B) by (subst m; lia).
  destruct (str_eqb_spec s (range_str A m)) as [->|H1].
  { left. do 6 eexists. split; [apply ts_left; auto; fold m; reflexivity|reflexivity]. }
  destruct (str_eqb_spec s (range_str (m + 1) B)) as [->|H2].
  { left. do 6 eexists. split; [apply ts_right; auto; fold m; reflexivity|reflexivity]. }
  destruct (IH (m - A) ltac:(lia) A m eq_refl) as [(x & y & pa & pb & sa & sb & Ht & ->)|H3].
  { left. do 6 eexists. split; [eapply ts_inl; eauto|reflexivity]. }
  destruct (IH (B - (m + 1)) ltac:(lia) (m + 1) B eq_refl) as [(x & y & pa & pb & sa & sb & Ht & ->)|H4].
  { left. do 6 eexists. split; [eapply ts_inr; eauto|reflexivity]. }
  right. intros x y pa pb sa sb Ht. apply tsub_inv in Ht. cbv zeta in Ht. fold m in Ht.
  destruct Ht as [(->&->&->&->&->&->)|[(->&->&->&->&->&->)|[Ht|Ht]]]; eauto.
Qed.
Lemma tree_inv o parent sibling s p : tree_maps o parent sibling -> parent s = Some p ->
  exists x y pa pb sa sb, tsub 0 (o - 1) x y pa pb sa sb /\ s = range_str x y /\ p = range_str pa pb /\
    sibling s = Some (range_str sa sb).
Proof.
  intros (H1 & H2) E. destruct (tsub_dec 0 (o - 1) s) as [(x & y & pa & pb & sa & sb & Ht & ->)|Hn].
  - destruct (H1 _ _ _ _ _ _ Ht) as [E1 E2]. cbn [fst snd] in *. rewrite E in E1. injection E1 as ->.
    do 6 eexists. eauto.
  - destruct (H2 s Hn) as [E1 _]. cbn in E1. rewrite E in E1. discriminate.
Qed.
