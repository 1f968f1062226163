(** C07: the dimension tree as maps of strings; C06: orders on which its evaluation fails *)
From Coq Require Import List ZArith Lia Bool Arith.
From Verif Require Import Base Num Tensor Spec MCommon MCP PBase PTensor PGrad PTree.
Import ListNotations.

(** following the parent map k times *)
Fixpoint ancestor (parent : smap str) (k : nat) (s : str) : option str :=
  match k with
  | O => Some s
  | S k' => match parent s with Some p => ancestor parent k' p | None => None end
  end.

Lemma range_app a m b : a <= m -> m < b -> range_str a m ++ range_str (m + 1) b = range_str a b.
Proof.
  intros. unfold range_str. rewrite <- map_app. f_equal. replace (m + 1) with (a + (m + 1 - a)) at 2 by lia.
  rewrite <- seq_app. f_equal. lia.
Qed.
Lemma tsub_reach o parent sibling : tree_maps o parent sibling ->
  forall n x y pa pb sa sb, o - (y + 1 - x) <= n -> tsub 0 (o - 1) x y pa pb sa sb ->
  exists k, k <= n /\ ancestor parent k (range_str x y) = Some (range_str 0 (o - 1)).
Proof.
  intros (Htr & _). induction n; intros x y pa pb sa sb Hn Ht.
  - pose proof (tsub_bounds _ _ _ _ _ _ _ _ Ht). lia.
  - pose proof (tsub_bounds _ _ _ _ _ _ _ _ Ht) as Hb.
    destruct (Htr _ _ _ _ _ _ Ht) as [Ep _]. cbn [fst] in Ep.
    destruct (tsub_up _ _ _ _ _ _ _ _ Ht) as [(-> & ->)|(_ & a & b & c & e & Hp)].
    + exists 1. split; [lia|]. cbn [ancestor]. rewrite Ep. auto.
    + destruct (IHn pa pb a b c e) as (k & Hk & Ek); auto; [lia|].
      exists (S k). split; [lia|]. cbn [ancestor]. rewrite Ep. auto.
Qed.

Theorem tree_props o fuel : 2 <= o <= 31 -> o <= fuel ->
  exists parent sibling,
  Construct_Dimension_Tree fuel (sempty, sempty) 0 (o - 1) = Ok (parent, sibling) /\
  let full := map chr (seq 0 o) in
  NoDup full /\
  (forall i, i < o -> exists k, k <= o /\ ancestor parent k [chr i] = Some full) /\
  parent full = None /\
  (forall s p, parent s = Some p ->
     (p = full \/ exists q, parent p = Some q) /\
     exists t, sibling s = Some t /\ parent t = Some p /\ sibling t = Some s /\
       s <> [] /\ t <> [] /\ (p = s ++ t \/ p = t ++ s) /\
       exists u v, full = u ++ p ++ v).
Proof.
  intros Ho Hf. destruct (tree_build o fuel) as (parent & sibling & E & Ht); [lia|lia|].
  exists parent, sibling. split; auto. cbv zeta.
  assert (Efull : map chr (seq 0 o) = range_str 0 (o - 1)).
  { unfold range_str. do 2 f_equal. lia. }
  rewrite Efull. split; [|split; [|split]].
  - rewrite <- Efull. apply NoDup_map_inj; [|apply seq_NoDup]. intros x y Hx Hy. apply in_seq in Hx, Hy.
    apply chr_inj; lia.
  - intros i Hi. destruct (tsub_leaf 0 (o - 1) i) as (pa & pb & sa & sb & Hl); [lia|lia|].
    destruct (tsub_reach o parent sibling Ht o i i pa pb sa sb) as (k & Hk & Ek); [lia|auto|].
    exists k. rewrite <- range_one. auto.
  - destruct (parent (range_str 0 (o - 1))) as [p|] eqn:Ep; auto.
    destruct (tree_inv _ _ _ _ _ Ht Ep) as (x & y & pa & pb & sa & sb & Hs & Es & _).
    pose proof (tsub_bounds _ _ _ _ _ _ _ _ Hs). apply range_str_inj in Es; lia.
  - intros s p Ep. destruct (tree_inv _ _ _ _ _ Ht Ep) as (x & y & pa & pb & sa & sb & Hs & -> & -> & Esib).
    pose proof (tsub_bounds _ _ _ _ _ _ _ _ Hs) as Hb. destruct Ht as (Htr & _). split.
    + destruct (tsub_up _ _ _ _ _ _ _ _ Hs) as [(-> & ->)|(_ & a & b & c & e & Hp)]; auto.
      right. destruct (Htr _ _ _ _ _ _ Hp) as [Eq _]. cbn [fst] in Eq. eauto.
    + exists (range_str sa sb). pose proof (tsub_sym _ _ _ _ _ _ _ _ Hs) as Hs'.
      destruct (Htr _ _ _ _ _ _ Hs') as [Ep' Es']. cbn [fst snd] in Ep', Es'.
      assert (Hne : forall a b, a <= b -> range_str a b <> []).
      { intros a b Hab E0. apply (f_equal (@length Z)) in E0. rewrite range_str_length in E0. simpl in E0. lia. }
      split; [auto|]. split; [auto|]. split; [auto|]. split; [apply Hne; lia|]. split; [apply Hne; lia|]. split.
      * destruct Hb as (? & ? & ? & ? & ? & ? & [(-> & Hy & -> & -> & Hlt)|(-> & Hs1 & -> & -> & Hlt)]).
        -- left. symmetry. apply range_app; lia.
        -- right. symmetry. apply range_app; lia.
      * exists (map chr (seq 0 pa)), (map chr (seq (pb + 1) (o - 1 - pb))). unfold range_str. rewrite <- !map_app.
        f_equal. rewrite app_assoc. replace pa with (0 + pa) at 2 by lia. rewrite <- seq_app.
        replace (pb + 1) with (0 + (pa + (pb + 1 - pa))) at 2 by lia. rewrite <- seq_app. f_equal. lia.
Qed.

(** ** C06 *)
Section Bad.
Context {N : num} (LA : lapack N).

Definition tree5 := Construct_Dimension_Tree 5 (sempty, sempty) 0 4.

Lemma bad5 fuel parent sibling (V : tensor N) W mp :
  tree_maps 5 parent sibling -> order V = 5 -> 1 <= length W ->
  mp (range_str 0 1) = None ->
  dt_M (S fuel) parent sibling V W mp 0 = Err UB.
Proof.
  intros (Htr & _) Ho HW Hmp.
  assert (T1 : tsub 0 4 0 0 0 1 1 1).
  { apply (ts_inl 0 4 2); try lia; auto. apply (ts_inl 0 2 1); try lia; auto. apply (ts_left 0 1 0); try lia; auto. }
  assert (T2 : tsub 0 4 0 1 0 2 2 2).
  { apply (ts_inl 0 4 2); try lia; auto. apply (ts_left 0 2 1); try lia; auto. }
  destruct (Htr _ _ _ _ _ _ T1) as [E1 E2]. destruct (Htr _ _ _ _ _ _ T2) as [E3 E4]. cbn [fst snd] in *.
  unfold dt_M. rewrite range_one in E1, E2. unfold sget. rewrite E1, E2, Hmp.
  cbn [mttkrp_map_DT]. destruct W as [|W0 W]; [simpl in HW; lia|]. cbn [lget nth_error of_opt bind]. rewrite Hmp.
  unfold sget. rewrite E3, E4, Ho. change (length (range_str 0 1)) with 2. change (5 / 2) with 2. cbn [Nat.eqb orb].
  unfold dt_top. rewrite Ho. reflexivity.
Qed.
Lemma bad3 fuel parent sibling (V : tensor N) W mp :
  tree_maps 3 parent sibling -> order V = 3 -> 1 <= length W ->
  mp (range_str 0 2) = None -> mp [] = None ->
  dt_M fuel parent sibling V W mp 2 = Err OutOfFuel.
Proof.
  intros (Htr & Hn) Ho HW Hmp Hmp0.
  assert (T1 : tsub 0 2 2 2 0 2 0 1) by (apply (ts_right 0 2 1); try lia; auto).
  destruct (Htr _ _ _ _ _ _ T1) as [E1 E2]. cbn [fst snd] in *.
  assert (E3 : parent (range_str 0 2) = None).
  { destruct (Hn (range_str 0 2)) as [E3 _]; auto. intros x y pa pb sa sb H. pose proof (tsub_bounds _ _ _ _ _ _ _ _ H).
    apply range_ne; lia. }
  assert (E4 : parent [] = None).
  { destruct (Hn []) as [E4 _]; auto. intros x y pa pb sa sb H E0. apply tsub_bounds in H.
    apply (f_equal (@length Z)) in E0. rewrite range_str_length in E0. simpl in E0. lia. }
  assert (HE : forall f, mttkrp_map_DT f mp parent sibling V W [] = Err OutOfFuel).
  { induction f; auto. cbn [mttkrp_map_DT]. destruct W as [|W0 W]; [simpl in HW; lia|]. cbn [lget nth_error of_opt bind].
    rewrite Hmp0. unfold sget. rewrite E4, Ho. change (3 / 2) with 1. cbn [length Nat.eqb orb]. rewrite Hmp0, IHf. auto. }
  unfold dt_M. rewrite range_one in E1, E2. unfold sget. rewrite E1, E2, Hmp.
  destruct fuel; [reflexivity|].
  cbn [mttkrp_map_DT]. destruct W as [|W0 W]; [simpl in HW; lia|]. cbn [lget nth_error of_opt bind]. rewrite Hmp.
  unfold sget. rewrite E3, Ho. change (length (range_str 0 2)) with 3. change (3 / 2) with 1. cbn [Nat.eqb orb].
  rewrite Hmp0, HE. reflexivity.
Qed.
Lemma bad12 fuel parent sibling (V : tensor N) W mp o : o = 1 \/ o = 2 ->
  tree_maps o parent sibling -> order V = o -> 1 <= length W ->
  mp (sget parent [chr 0]) = None ->
  dt_M (S fuel) parent sibling V W mp 0 = Err UB.
Proof.
  intros Ho' (Htr & Hn) Ho HW.
  destruct Ho' as [->| ->].
  - assert (E1 : forall s, parent s = None /\ sibling s = None).
    { intros s. destruct (Hn s); auto. intros x y pa pb sa sb H. apply tsub_bounds in H. simpl in H. lia. }
    unfold dt_M, sget. rewrite (proj1 (E1 [chr 0])), (proj2 (E1 [chr 0])). intros Hmp. rewrite Hmp.
    cbn [mttkrp_map_DT]. destruct W as [|W0 W]; [simpl in HW; lia|]. cbn [lget nth_error of_opt bind]. rewrite Hmp.
    unfold sget. rewrite (proj1 (E1 [])), (proj2 (E1 [])). rewrite Ho.
    change (1 / 2) with 0. cbn [length Nat.eqb orb]. unfold dt_top. rewrite Ho. reflexivity.
  - assert (T1 : tsub 0 1 0 0 0 1 1 1) by (apply (ts_left 0 1 0); try lia; auto).
    destruct (Htr _ _ _ _ _ _ T1) as [E1 E2]. cbn [fst snd] in *.
    assert (E3 : parent (range_str 0 1) = None /\ sibling (range_str 0 1) = None).
    { destruct (Hn (range_str 0 1)); auto. intros x y pa pb sa sb H. pose proof (tsub_bounds _ _ _ _ _ _ _ _ H).
      apply range_ne; lia. }
    unfold dt_M, sget. rewrite range_one in E1, E2. rewrite E1, E2. intros Hmp. rewrite Hmp.
    cbn [mttkrp_map_DT]. destruct W as [|W0 W]; [simpl in HW; lia|]. cbn [lget nth_error of_opt bind]. rewrite Hmp.
    unfold sget. rewrite (proj1 E3), (proj2 E3). rewrite Ho.
    change (length (range_str 0 1)) with 2. change (2 / 2) with 1. cbn [Nat.eqb orb Nat.add]. unfold dt_top. rewrite Ho. reflexivity.
Qed.

Lemma bad_sweep e (V : tensor N) (F W G : list (tensor N)) regul Sm fuel parent sibling :
  1 <= order V <= 31 -> length W = order V ->
  (forall mp, (forall s, mp s = None) -> dt_M fuel parent sibling V W mp 0 = Err e) ->
  alsCP_DT_sweep LA fuel parent sibling V F regul W G Sm (lbuf (order V)) = Err e.
Proof.
  intros Ho HL He. unfold alsCP_DT_sweep. rewrite for_first by lia. unfold alsCP_DT_mode at 1.
  rewrite swap_lbuf by lia. cbn [bind]. rewrite (lget_ok W 0 tnil) by lia. cbn [bind].
  rewrite (make_index_ok (order V) 0 _ _ (fun m => nth m (lens V) 0)).
  - cbn [bind]. rewrite He by reflexivity. reflexivity.
  - lia.
  - lia.
  - intros m Hm. apply lget_ok. auto.
Qed.

Lemma dt_M_map3 fuel parent sibling (V : tensor N) W mp i mp' M :
  tree_maps 3 parent sibling -> order V = 3 -> i < 2 ->
  dt_M fuel parent sibling V W mp i = Ok (mp', M) -> mp' = mp \/ exists T, mp' = sput mp (range_str 0 1) T.
Proof.
  intros (Htr & Hn) Ho Hi E.
  assert (T1 : exists s, tsub 0 2 i i 0 1 s s /\ s < 2).
  { destruct (Nat.eq_dec i 0) as [->|]; [exists 1|assert (i = 1) as -> by lia; exists 0].
    - split; auto. apply (ts_inl 0 2 1); try lia; auto. apply (ts_left 0 1 0); try lia; auto.
    - split; auto. apply (ts_inl 0 2 1); try lia; auto. apply (ts_right 0 1 0); try lia; auto. }
  destruct T1 as (sb & T1 & Hsb). destruct (Htr _ _ _ _ _ _ T1) as [E1 E2]. cbn [fst snd] in *.
  unfold dt_M in E. rewrite range_one in E1, E2. unfold sget in E. rewrite E1, E2 in E.
  apply bind_ok in E as (mp1 & Emp & E).
  assert (Hmp1 : mp1 = mp' ).
  { apply bind_ok in E as (Wi & _ & E). rewrite range_str_length in E.
    replace (sb + 1 - sb) with 1 in E by lia. cbn [Nat.eqb] in E.
    apply bind_ok in E as (? & _ & E). apply bind_ok in E as (? & _ & E). apply bind_ok in E as (? & _ & E).
    apply bind_ok in E as (? & _ & E). apply bind_ok in E as (? & _ & E). injection E as -> _. auto. }
  subst mp1. destruct (mp (range_str 0 1)) eqn:Emap; [injection Emp as <-; auto|].
  destruct fuel; [discriminate|]. cbn [mttkrp_map_DT] in Emp.
  apply bind_ok in Emp as (W0 & _ & Emp). rewrite Emap, Ho in Emp.
  change (length (range_str 0 1)) with 2 in Emp. change (3 / 2) with 1 in Emp. cbn [Nat.eqb orb Nat.add] in Emp.
  apply bind_ok in Emp as (T & _ & Emp). injection Emp as <-. eauto.
Qed.

Lemma mode3 fuel parent sibling (V : tensor N) F regul i st st' :
  tree_maps 3 parent sibling -> order V = 3 -> i < 2 ->
  alsCP_DT_mode LA fuel parent sibling V F regul i st = Ok st' ->
  let '(W, _, _, mp, _) := st in let '(W', _, _, mp', _) := st' in
  length W' = length W /\ (mp' = mp \/ exists T, mp' = sput mp (range_str 0 1) T).
Proof.
  intros Ht Ho Hi E. destruct st as [[[[W G] Sm] mp] sq]. destruct st' as [[[[W' G'] Sm'] mp'] sq'].
  unfold alsCP_DT_mode in E.
  apply bind_ok in E as (? & _ & E). apply bind_ok in E as (? & _ & E).
  apply bind_ok in E as ([? ?] & _ & E). apply bind_ok in E as ([mp2 M] & EM & E).
  do 6 (apply bind_ok in E as (? & _ & E)). apply bind_ok in E as (? & _ & E).
  apply bind_ok in E as (Wi & _ & E). apply bind_ok in E as (W2 & EW & E). apply bind_ok in E as (? & _ & E).
  injection E as <- _ _ <- _. split.
  - unfold lput in EW. destruct (i <? length W); [|discriminate]. injection EW as <-. apply lset_length.
  - eapply dt_M_map3; eauto.
Qed.

Lemma bad3_sweep fuel parent sibling (V : tensor N) F regul (W G : list (tensor N)) Sm sq r :
  tree_maps 3 parent sibling -> order V = 3 -> 1 <= length W ->
  alsCP_DT_sweep LA fuel parent sibling V F regul W G Sm sq <> Ok r.
Proof.
  intros Ht Ho HL E. unfold alsCP_DT_sweep in E. apply bind_ok in E as (st & E & _). rewrite Ho in E.
  rewrite for_first in E by lia. apply bind_ok in E as (st1 & E1 & E).
  rewrite for_first in E by lia. apply bind_ok in E as (st2 & E2 & E).
  rewrite for_first in E by lia. apply bind_ok in E as (st3 & E3 & E).
  apply mode3 in E1; auto. apply mode3 in E2; auto.
  destruct st1 as [[[[W1 G1] Sm1] mp1] sq1]. destruct st2 as [[[[W2 G2] Sm2] mp2] sq2].
  destruct E1 as [L1 H1]. destruct E2 as [L2 H2].
  assert (Hm : forall s, s <> range_str 0 1 -> mp2 s = None).
  { intros s Hs. destruct H1 as [->|[T1 ->]]; destruct H2 as [->|[T2 ->]]; rewrite ?sput_neq by auto; auto. }
  unfold alsCP_DT_mode in E3.
  apply bind_ok in E3 as (? & _ & E3). apply bind_ok in E3 as (? & _ & E3).
  apply bind_ok in E3 as ([? ?] & _ & E3). apply bind_ok in E3 as ([mp3 M] & EM & E3).
  rewrite (bad3 fuel parent sibling V W2 mp2) in EM; auto; try discriminate.
  - lia.
  - apply Hm. apply range_ne; lia.
  - apply Hm. discriminate.
Qed.
End Bad.
