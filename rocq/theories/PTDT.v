(** The dimension tree of Tucker: every cached node is the partial TTMc with the current factors *)
From Coq Require Import List ZArith Lia Bool Arith Permutation Ring.
From Verif Require Import Base Num Tensor Spec Spec7 MCommon MCP MTucker PBase PTensor PSum PMttkrp PPart PMat PKhatri PGrad PDrivers PTree PBuildV PTtm PTucker PHosvd.
Import ListNotations.

Lemma str_at_rng a b j : j < b + 1 - a -> str_at (range_str a b) j = Ok (chr (a + j)).
Proof.
  intros H. unfold str_at. rewrite range_str_length. rewrite (proj2 (Nat.ltb_lt _ _)) by auto.
  rewrite (lget_ok _ _ 0%Z) by (rewrite range_str_length; auto). f_equal. unfold range_str.
  rewrite (nth_map_lt _ _ _ 0%nat) by (rewrite seq_length; auto). rewrite nth_seq; auto.
Qed.

Lemma nodup_app2 {A} (l l' : list A) : NoDup l -> NoDup l' -> (forall x, In x l -> In x l' -> False) -> NoDup (l ++ l').
Proof.
  induction 1 as [|x l Hx Hl IH]; intros H' Hd; simpl; auto. constructor.
  - rewrite in_app_iff. intros [H|H]; auto. apply (Hd x); simpl; auto.
  - apply IH; auto. intros y Hy. apply Hd. simpl; auto.
Qed.

Section P.
Context {N : num} (RL : ring_laws N) (LA : lapack N).
Let RT : ring_theory (@n0 N) n1 nadd nmul nsub nopp (@eq N) := RL.
Add Ring NringD : RT.
Local Open Scope num_scope.
Context (V : tensor N).
Let o := order V.
Hypothesis Ho : (2 <= o <= 31)%nat.

Definition tnode (W : list (tensor N)) (x y : nat) : tensor N := ttmc V W (outside (seq x (y + 1 - x)) o).

Lemma ttmc_same (W : list (tensor N)) ms ms' : NoDup ms -> NoDup ms' -> (forall m, In m ms <-> In m ms') -> ttmc V W ms = ttmc V W ms'.
Proof. intros H1 H2 H3. apply (ttmc_perm RL). apply NoDup_Permutation; auto. Qed.
Lemma tnode_ext W W' x y : (forall m, (m < o)%nat -> ~ (x <= m <= y)%nat -> fac W m = fac W' m) -> tnode W x y = tnode W' x y.
Proof. intros H. apply ttmc_ext. intros m Hm. apply outside_in in Hm as [H1 H2]. rewrite in_seq in H2. apply H; auto. lia. Qed.

(** the contraction of the sibling's modes *)
Lemma sib_loop W ms sa sb0 : shapes V W -> (sb0 < o)%nat -> (forall m, (sa <= m <= sb0)%nat -> ~ In m ms) ->
  exists ly, for_ 0 (length (range_str sa sb0)) (fun j st =>
          let '(V_front, lens_Y, seq_Y) := st in
          c <- str_at (range_str sa sb0) j ;;
          m <- ix c ;;
          Wm <- lget W m ;;
          lens_Y <- lput lens_Y m (ncol Wm) ;;
          seq_Y <- bset seq_Y m ch_star ;;
          V_temp <- assign_b (zeros lens_Y) seq_Y [(V_front, lbuf o); (Wm, lit [c; ch_star])] ;;
          seq_Y <- bset seq_Y m c ;;
          Ok (V_temp, lens_Y, seq_Y)) (ttmc V W ms, lens (ttmc V W ms), lbuf o)
  = Ok (ttmc V W (rev (seq sa (sb0 + 1 - sa)) ++ ms), ly, lbuf o).
Proof.
  intros HS Hsb Hd. pose proof HS as (HV & LW & HW). rewrite range_str_length. set (n := (sb0 + 1 - sa)%nat).
  destruct (for_inv (fun j st => st = (ttmc V W (rev (seq sa j) ++ ms), lens (ttmc V W (rev (seq sa j) ++ ms)), lbuf o))
    (fun j st =>
          let '(V_front, lens_Y, seq_Y) := st in
          c <- str_at (range_str sa sb0) j ;;
          m <- ix c ;;
          Wm <- lget W m ;;
          lens_Y <- lput lens_Y m (ncol Wm) ;;
          seq_Y <- bset seq_Y m ch_star ;;
          V_temp <- assign_b (zeros lens_Y) seq_Y [(V_front, lbuf o); (Wm, lit [c; ch_star])] ;;
          seq_Y <- bset seq_Y m c ;;
          Ok (V_temp, lens_Y, seq_Y)) 0%nat n (ttmc V W ms, lens (ttmc V W ms), lbuf o)) as (st & E & ->).
  - lia.
  - reflexivity.
  - intros j st Hj ->. rewrite str_at_rng by (fold n; lia). cbn [bind]. set (m := (sa + j)%nat).
    assert (Hm : (m < o)%nat) by lia.
    rewrite ix_chr by lia. cbn [bind]. rewrite (lget_ok W m tnil) by (fold o in LW; lia). cbn [bind]. fold (fac W m).
    set (ms' := rev (seq sa j) ++ ms).
    assert (Hlen : length (lens (ttmc V W ms')) = o) by apply ttmc_order.
    rewrite lput_ok by lia. cbn [bind]. rewrite lbuf_sb. rewrite sb_bset by (rewrite letters_len; auto). cbn [bind].
    rewrite assign_b_sb2.
    2:{ unfold order. cbn [zeros tabulate lens]. rewrite !lset_length, letters_len. auto. }
    2:{ rewrite letters_len. apply ttmc_order. }
    2:{ apply (mat_order _ _ _ (HW m Hm)). }
    assert (Hnm : ~ In m ms').
    { unfold ms'. rewrite in_app_iff, <- in_rev, in_seq. intros [H|H]; [lia|]. apply (Hd m); auto. lia. }
    unfold o. rewrite (ttm_step RL false _ V W ms' m ch_star HS) by (auto; try (fold o; lia); apply star_fresh; fold o; lia). fold o.
    cbn [bind]. rewrite sb_bset by (rewrite lset_length, letters_len; lia). cbn [bind].
    eexists; split; [reflexivity|].
    assert (Es : rev (seq sa (S j)) ++ ms = m :: ms'). { rewrite seq_S, rev_app_distr. reflexivity. }
    rewrite Es. f_equal; [f_equal|].
    + cbn [ttmc tabulate lens]. symmetry. apply ttmc_cons_lens. auto.
    + f_equal. rewrite <- (letters_nth chr o m 0%Z) by lia. apply lset_restore.
  - eexists. exact E.
Qed.

Context (parent sibling : smap str).
Hypothesis Htree : tree_maps o parent sibling.
Hypothesis Hgood : (o = 2 \/ o = 4 \/ 6 <= o)%nat.

Definition tvalid (W : list (tensor N)) (i : nat) (mp : smap (tensor N)) : Prop :=
  forall x y T, (x <= i <= y)%nat -> (y < o)%nat -> mp (range_str x y) = Some T -> T = tnode W x y.
(** the nodes that are computed: inner nodes, and the root for order 2 *)
Definition pnode (x y : nat) : Prop :=
  (exists a b c e, tsub 0 (o - 1) x y a b c e) \/ (o = 2 /\ x = 0 /\ y = 1)%nat.

Lemma ttop_iff x y pa pb sa sb : tsub 0 (o - 1) x y pa pb sa sb -> (x < y)%nat ->
  (y + 1 - x = o / 2 \/ y + 1 - x = o / 2 + 1)%nat <-> (pa = 0 /\ pb = o - 1)%nat.
Proof.
  intros H Hxy. pose proof (tsub_bounds _ _ _ _ _ _ _ _ H). pose proof (tsub_up _ _ _ _ _ _ _ _ H) as [Hu|(Hu & a & b & c & e & Hs)].
  - split; [tauto|]. intros _. destruct Hu as [-> ->].
    assert (Hd : (o / 2 * 2 <= o < o / 2 * 2 + 2)%nat).
    { pose proof (Nat.div_mod o 2 ltac:(lia)). pose proof (Nat.mod_upper_bound o 2 ltac:(lia)). lia. }
    assert (Hd2 : ((0 + (o - 1)) / 2 * 2 <= (o - 1) < (0 + (o - 1)) / 2 * 2 + 2)%nat).
    { pose proof (Nat.div_mod (0 + (o - 1)) 2 ltac:(lia)). pose proof (Nat.mod_upper_bound (0 + (o - 1)) 2 ltac:(lia)). lia. }
    lia.
  - pose proof (tsub_bounds _ _ _ _ _ _ _ _ Hs).
    assert (Hd : (o / 2 * 2 <= o < o / 2 * 2 + 2)%nat).
    { pose proof (Nat.div_mod o 2 ltac:(lia)). pose proof (Nat.mod_upper_bound o 2 ltac:(lia)). lia. }
    assert (Hu' : (y + 1 - x < o / 2)%nat).
    { assert ((o - 1 - 0 + 2) / 2 * 2 <= o + 1)%nat.
      { pose proof (Nat.div_mod (o - 1 - 0 + 2) 2 ltac:(lia)). lia. }
      pose proof (Nat.div_mod ((o - 1 - 0 + 2) / 2 + 1) 2 ltac:(lia)). lia. }
    split; lia.
Qed.

Lemma range_front x y pa pb sa sb0 : tsub 0 (o - 1) x y pa pb sa sb0 -> forall W,
  ttmc V W (rev (seq sa (sb0 + 1 - sa)) ++ outside (seq pa (pb + 1 - pa)) o) = tnode W x y.
Proof.
  intros H W. pose proof (tsub_bounds _ _ _ _ _ _ _ _ H) as Hb. apply ttmc_same.
  - apply nodup_app2; [apply NoDup_rev, seq_NoDup|apply outside_nodup|].
    intros m. rewrite <- in_rev, in_seq, outside_in, in_seq. lia.
  - apply outside_nodup.
  - intros m. rewrite in_app_iff, <- in_rev, in_seq, !outside_in, !in_seq. lia.
Qed.

Theorem TDT_ok W i x y fuel mp :
  shapes V W -> pnode x y -> (x < y)%nat -> (x <= i <= y)%nat ->
  (o - (y + 1 - x) < fuel)%nat -> tvalid W i mp ->
  exists mp', ttmc_map_DT fuel mp parent sibling V W (range_str x y) = Ok mp' /\ tvalid W i mp' /\
    (exists T, mp' (range_str x y) = Some T) /\
    (forall s T, mp' s = Some T -> mp s = Some T \/ exists x' y', (x' <= i <= y')%nat /\ (y' < o)%nat /\ s = range_str x' y').
Proof.
  intros HS. revert x y mp. induction fuel as [|fuel IH]; intros x y mp Hp Hxy Hi Hfuel Hv; [lia|].
  cbn [ttmc_map_DT].
  destruct (mp (range_str x y)) as [T0|] eqn:Emp.
  { exists mp. split; auto. split; auto. split; [eauto|]. auto. }
  fold o. rewrite mk_seqV_ok. cbn [bind]. rewrite range_str_length.
  assert (HV : wf V) by apply HS.
  assert (Hput : forall mp0, (y < o)%nat -> tvalid W i mp0 -> tvalid W i (sput mp0 (range_str x y) (tnode W x y))).
  { intros mp0 Hyo Hv0 x' y' T' Hx' Hy' E'. unfold sput in E'.
    destruct (str_eqb_spec (range_str x' y') (range_str x y)) as [Eq|Ne]; [|eapply Hv0; eauto].
    injection E' as <-. apply range_str_inj in Eq as [-> ->]; auto; lia. }
  assert (Hnil : V = ttmc V W []) by (symmetry; apply (ttmc_nil RL); auto).
  destruct Hp as [(pa & pb & sa & sb0 & Ht)|(Eo & -> & ->)].
  - destruct Htree as (Htr & _). destruct (Htr _ _ _ _ _ _ Ht) as [Ep Es]. cbn [fst snd] in Ep, Es.
    unfold sget. rewrite Ep, Es.
    pose proof (tsub_bounds _ _ _ _ _ _ _ _ Ht) as Hb.
    assert (Hfin : forall mp1 , tvalid W i mp1 ->
       (forall s T, mp1 s = Some T -> mp s = Some T \/ exists x' y', (x' <= i <= y')%nat /\ (y' < o)%nat /\ s = range_str x' y') ->
       exists mp', Ok (sput mp1 (range_str x y) (tnode W x y)) = Ok mp' /\ tvalid W i mp' /\
       (exists T, mp' (range_str x y) = Some T) /\
       (forall s T, mp' s = Some T -> mp s = Some T \/ exists x' y', (x' <= i <= y')%nat /\ (y' < o)%nat /\ s = range_str x' y')).
    { intros mp1 Hv1 Hn1. eexists. split; [reflexivity|]. split; [apply Hput; auto; lia|]. split; [eexists; apply sput_eq|].
      intros s T E'. unfold sput in E'. destruct (str_eqb_spec s (range_str x y)); auto. right. exists x, y. split; [lia|]. split; [lia|auto]. }
    destruct (Nat.eqb (y + 1 - x) (o / 2) || Nat.eqb (y + 1 - x) (o / 2 + 1)) eqn:Etop.
    + assert (Hroot : pa = 0%nat /\ pb = (o - 1)%nat).
      { apply (ttop_iff _ _ _ _ _ _ Ht Hxy). apply orb_true_iff in Etop as [E|E]; apply Nat.eqb_eq in E; auto. }
      cbn [bind].
      destruct (sib_loop W [] sa sb0 HS) as (ly & El); [lia|auto|].
      rewrite <- Hnil in El. rewrite El. cbn [bind].
      assert (En : ttmc V W (rev (seq sa (sb0 + 1 - sa)) ++ []) = tnode W x y).
      { rewrite <- (range_front _ _ _ _ _ _ Ht W). f_equal. f_equal. destruct Hroot as [-> ->].
        destruct (outside (seq 0 (o - 1 + 1 - 0)) o) as [|z l] eqn:Eo; auto. exfalso.
        assert (Hz : In z (outside (seq 0 (o - 1 + 1 - 0)) o)) by (rewrite Eo; left; auto).
        apply outside_in in Hz as [Hz1 Hz2]. apply Hz2. apply in_seq. lia. }
      rewrite En. apply Hfin; auto.
    + apply orb_false_iff in Etop as [e1 e2]. apply Nat.eqb_neq in e1, e2.
      destruct (tsub_up _ _ _ _ _ _ _ _ Ht) as [Hroot|(_ & Hpar)].
      { apply (ttop_iff _ _ _ _ _ _ Ht Hxy) in Hroot. tauto. }
      assert (Hpar' : exists mp1, match mp (range_str pa pb) with Some _ => Ok mp
                     | None => ttmc_map_DT fuel mp parent sibling V W (range_str pa pb) end = Ok mp1 /\
              tvalid W i mp1 /\ (exists T, mp1 (range_str pa pb) = Some T) /\
              (forall s T, mp1 s = Some T -> mp s = Some T \/ exists x' y', (x' <= i <= y')%nat /\ (y' < o)%nat /\ s = range_str x' y')).
      { destruct (mp (range_str pa pb)) as [Tp|] eqn:Epar.
        - exists mp. split; auto. split; auto. split; [eauto|auto].
        - apply (IH pa pb mp); auto; [left; auto|lia|lia|lia]. }
      destruct Hpar' as (mp1 & E1 & Hv1 & (Tp & ETp) & Hnew). rewrite E1. cbn [bind].
      assert (ETn : Tp = tnode W pa pb) by (apply (Hv1 pa pb); auto; lia).
      unfold tget. rewrite ETp, ETn. unfold tnode.
      destruct (sib_loop W (outside (seq pa (pb + 1 - pa)) o) sa sb0 HS) as (ly & El); [lia| |].
      { intros m Hm. rewrite outside_in, in_seq. lia. }
      rewrite El. cbn [bind]. rewrite (range_front _ _ _ _ _ _ Ht W). apply Hfin; auto.
  - assert (Es : sibling (range_str 0 1) = None).
    { destruct Htree as (_ & Hn). destruct (Hn (range_str 0 1)) as [_ Es]; auto. rewrite Eo.
      intros x y pa pb sa sb0 H. pose proof (tsub_bounds _ _ _ _ _ _ _ _ H) as Hb. cbn [Nat.sub] in Hb. apply range_ne; lia. }
    rewrite Eo. change (2 / 2)%nat with 1%nat. cbn [Nat.add Nat.sub Nat.eqb orb bind]. unfold sget. rewrite Es. cbn [length].
    rewrite for_empty by lia. cbn [bind].
    assert (En : V = tnode W 0 1).
    { unfold tnode. rewrite Eo. rewrite Hnil at 1. reflexivity. }
    eexists. split; [reflexivity|]. split; [rewrite En at 1; apply Hput; auto; lia|]. split; [eexists; apply sput_eq|].
    intros s T E'. unfold sput in E'. destruct (str_eqb_spec s (range_str 0 1)); auto. right. exists 0%nat, 1%nat. split; [lia|]. split; [lia|auto].
Qed.

Lemma tleaf_facts pa pb sa sb i : tsub 0 (o - 1) i i pa pb sa sb ->
  ((pa <= i <= pb /\ pa < pb /\ pb < o /\ pnode pa pb) /\
  ((pb = pa + 1 /\ sa = sb /\ ((i = pa /\ sa = pa + 1) \/ (i = pa + 1 /\ sa = pa))) \/
   (pb = pa + 2 /\ i = pa + 2 /\ sa = pa /\ sb = pa + 1)))%nat.
Proof.
  intros H. pose proof (tsub_bounds _ _ _ _ _ _ _ _ H) as Hb.
  assert (Hd : forall a b, ((a + b) / 2 * 2 <= a + b < (a + b) / 2 * 2 + 2)%nat).
  { intros a b. pose proof (Nat.div_mod (a + b) 2 ltac:(lia)). pose proof (Nat.mod_upper_bound (a + b) 2 ltac:(lia)). lia. }
  specialize (Hd pa pb). split; [|lia].
  split; [lia|]. split; [lia|]. split; [lia|].
  destruct (tsub_up _ _ _ _ _ _ _ _ H) as [Hroot|(_ & Hp)]; [|left; auto]. right. lia.
Qed.

Lemma ttm_step2 (C : tensor N) W ms m1 m2 : shapes V W -> (m1 < o)%nat -> (m2 < o)%nat -> m1 <> m2 -> ~ In m1 ms -> ~ In m2 ms ->
  lens C = ttmc_lens V W (m2 :: m1 :: ms) ->
  assign false C (lset (lset (letters chr o) m1 ch_star) m2 ch_hat)
    [prodt [(ttmc V W ms, letters chr o); (fac W m1, [chr m1; ch_star]); (fac W m2, [chr m2; ch_hat])]]
  = Ok (ttmc V W (m2 :: m1 :: ms)).
Proof.
  intros (HV & LW & HW) H1 H2 Hne Hn1 Hn2 LC.
  replace (chr m1) with (nth m1 (letters chr o) 0%Z) by (apply letters_nth; auto).
  replace (chr m2) with (nth m2 (letters chr o) 0%Z) by (apply letters_nth; auto).
  rewrite (assign_ttm2 RL).
  - rewrite (ttm_ttmc RL) by auto. rewrite (ttm_ttmc RL); auto. intros [E|E]; auto.
  - apply letters_chr_nodup; lia.
  - rewrite letters_len, ttmc_order. auto.
  - rewrite ttmc_order; auto.
  - rewrite ttmc_order; auto.
  - auto.
  - apply star_fresh; lia.
  - apply hat_fresh; lia.
  - discriminate.
  - apply ttmc_wf.
  - cbn [ttmc tabulate lens]. rewrite ttmc_lens_nth, existsb_not by auto. auto.
  - cbn [ttmc tabulate lens]. rewrite ttmc_lens_nth, existsb_not by auto. auto.
  - rewrite LC. cbn [ttmc tabulate lens]. rewrite !ttmc_cons_lens by auto. auto.
Qed.
Lemma tixs3 (A B C : tensor N) a b c sa sb' sc :
  take (order A) a = Ok sa -> take (order B) b = Ok sb' -> take (order C) c = Ok sc ->
  tixs [(A, a); (B, b); (C, c)] = Ok [(A, sa); (B, sb'); (C, sc)].
Proof. intros H1 H2 H3. cbn [tixs]. unfold tix. rewrite H1, H2, H3. auto. Qed.

Theorem dt_Y_ok (W : list (tensor N)) i fuel (mp : smap (tensor N)) (Y : tensor N) :
  shapes V W -> (i < o)%nat -> (o < fuel)%nat -> tvalid W i mp -> lens Y = ttmc_lens V W (others i o) ->
  exists mp', dt_Y fuel parent sibling V W (lbuf o) Y mp (lbuf o) i = Ok (mp', ttmc V W (others i o), lbuf o) /\ tvalid W i mp' /\
    (forall s T, mp' s = Some T -> mp s = Some T \/ exists x' y', (x' <= i <= y')%nat /\ (y' < o)%nat /\ s = range_str x' y').
Proof.
  intros HS Hi Hfuel Hv LY. pose proof HS as (HV & LW & HW). fold o in LW, HW.
  destruct (tsub_leaf 0 (o - 1) i) as (pa & pb & sa & sb0 & Ht); [lia|lia|].
  pose proof (tleaf_facts _ _ _ _ _ Ht) as ((Hpi & Hab & Hpb & Hp) & Hcase).
  destruct Htree as (Htr & Htr'). destruct (Htr _ _ _ _ _ _ Ht) as [Ep Es]. cbn [fst snd] in Ep, Es.
  unfold dt_Y. rewrite range_one in Ep, Es. unfold sget. rewrite Ep, Es.
  assert (Hm : exists mp', match mp (range_str pa pb) with
     | Some _ => Ok mp | None => ttmc_map_DT fuel mp parent sibling V W (range_str pa pb) end = Ok mp' /\
     tvalid W i mp' /\ (exists T, mp' (range_str pa pb) = Some T) /\
     (forall s T, mp' s = Some T -> mp s = Some T \/ exists x' y', (x' <= i <= y')%nat /\ (y' < o)%nat /\ s = range_str x' y')).
  { destruct (mp (range_str pa pb)) as [Tp|] eqn:Epar.
    - exists mp. split; auto. split; auto. split; [eauto|auto].
    - apply TDT_ok; auto. lia. }
  destruct Hm as (mp' & E1 & Hv' & (T & ET) & Hnew). rewrite E1. cbn [bind].
  unfold tget. rewrite ET. rewrite (Hv' pa pb T Hpi Hpb ET). unfold tnode. rewrite range_str_length.
  set (ms := outside (seq pa (pb + 1 - pa)) o).
  assert (Hms : forall m, In m ms <-> (m < o)%nat /\ ~ (pa <= m <= pb)%nat).
  { intros m. unfold ms. rewrite outside_in, in_seq. split; intros [? ?]; split; auto; lia. }
  assert (Hmn : NoDup ms) by apply outside_nodup.
  assert (OY : order Y = o). { unfold order. rewrite LY. apply ttmc_lens_length. }
  exists mp'. 
  destruct Hcase as [(-> & <- & Hc)|(-> & -> & -> & ->)].
  - replace (sa + 1 - sa)%nat with 1%nat by lia. cbn [Nat.eqb].
    rewrite !str_at_rng by lia. cbn [bind]. rewrite Nat.add_0_r.
    assert (Ea : (if (chr i =? chr pa)%Z then chr (pa + 1) else chr pa) = chr sa).
    { destruct (Z.eqb_spec (chr i) (chr pa)) as [E|E].
      - apply chr_inj in E; [|lia|lia]. f_equal. lia.
      - destruct Hc as [[-> ->]|[-> ->]]; auto; congruence. }
    rewrite Ea. rewrite ix_chr by lia. cbn [bind]. rewrite (lget_ok W sa tnil) by lia. cbn [bind]. fold (fac W sa).
    rewrite lbuf_sb. rewrite sb_bset by (rewrite letters_len; lia). cbn [bind].
    rewrite assign_b_sb2; [|rewrite lset_length, letters_len; auto|rewrite letters_len; apply ttmc_order|apply (mat_order _ _ _ (HW sa ltac:(lia)))].
    assert (Hns : ~ In sa ms) by (rewrite Hms; lia).
    assert (HT : ttmc V W (sa :: ms) = ttmc V W (others i o)).
    { apply ttmc_same; [constructor; auto|apply others_nodup|]. intros m. cbn [In]. rewrite Hms, others_in. lia. }
    unfold o. rewrite (ttm_step RL false _ V W ms sa ch_star HS); try (fold o; lia); auto.
    2:{ apply star_fresh; fold o; lia. }
    2:{ rewrite LY. pose proof (f_equal lens HT) as HL. cbn [ttmc tabulate lens] in HL. rewrite <- HL. apply ttmc_cons_lens. fold o; lia. }
    fold o. cbn [bind]. rewrite sb_bset by (rewrite lset_length, letters_len; lia). cbn [bind].
    split; [|auto]. rewrite HT. f_equal. f_equal. f_equal. rewrite <- (letters_nth chr o sa 0%Z) by lia. apply lset_restore.
  - replace (pa + 1 + 1 - pa)%nat with 2%nat by lia. cbn [Nat.eqb].
    rewrite !str_at_rng by lia. cbn [bind]. rewrite Nat.add_0_r.
    destruct (Z.eqb_spec (chr pa) (chr (pa + 2))) as [E|_]; [apply chr_inj in E; lia|].
    cbn [bind]. rewrite ix_chr by lia. cbn [bind]. rewrite (lget_ok W pa tnil) by lia. cbn [bind].
    rewrite ix_chr by lia. cbn [bind]. rewrite (lget_ok W (pa + 1) tnil) by lia. cbn [bind].
    fold (fac W pa). fold (fac W (pa + 1)).
    rewrite lbuf_sb. rewrite sb_bset by (rewrite letters_len; lia). cbn [bind].
    rewrite sb_bset by (rewrite lset_length, letters_len; lia). cbn [bind].
    rewrite (assign_b_ok _ _ _ (lset (lset (letters chr o) pa ch_star) (pa + 1) ch_hat)
        [(ttmc V W ms, letters chr o); (fac W pa, [chr pa; ch_star]); (fac W (pa + 1), [chr (pa + 1); ch_hat])]).
    2:{ apply sb_take. rewrite !lset_length, letters_len. auto. }
    2:{ apply tixs3; [apply sb_take; rewrite letters_len; apply ttmc_order|rewrite lit_sb; apply sb_take..].
        - apply (mat_order _ _ _ (HW pa ltac:(lia))).
        - apply (mat_order _ _ _ (HW (pa + 1)%nat ltac:(lia))). }
    assert (Hn1 : ~ In pa ms) by (rewrite Hms; lia). assert (Hn2 : ~ In (pa + 1)%nat ms) by (rewrite Hms; lia).
    assert (HT : ttmc V W ((pa + 1)%nat :: pa :: ms) = ttmc V W (others (pa + 2) o)).
    { apply ttmc_same; [|apply others_nodup|].
      - constructor; [|constructor; auto]. intros [E|E]; [lia|auto].
      - intros m. cbn [In]. rewrite Hms, others_in. lia. }
    rewrite ttm_step2; auto; try lia.
    2:{ rewrite LY. pose proof (f_equal lens HT) as HL. cbn [ttmc tabulate lens] in HL. auto. }
    cbn [bind]. rewrite sb_bset by (rewrite !lset_length, letters_len; lia). cbn [bind].
    rewrite sb_bset by (rewrite !lset_length, letters_len; lia). cbn [bind].
    split; [|auto]. rewrite HT. f_equal. f_equal. f_equal.
    rewrite (lset_comm _ (pa + 1) pa) by lia. rewrite !lset_lset.
    rewrite <- (letters_nth chr o pa 0%Z) by lia. rewrite lset_self.
    rewrite <- (letters_nth chr o (pa + 1) 0%Z) by lia. apply lset_self.
Qed.
End P.
