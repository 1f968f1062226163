(** Orders for which the Tucker dimension tree fails *)
From Coq Require Import List ZArith Lia Bool Arith Permutation Ring.
From Verif Require Import Base Num Tensor Spec Spec7 MCommon MCP MTucker PBase PTensor PSum PMttkrp PPart PMat PKhatri PGrad PDrivers PTree PBuildV PTtm PTucker PHosvd PTDT PSign PTSweep.
Import ListNotations.

Section P.
Context {N : num} (RL : ring_laws N) (LA : lapack N).
Local Open Scope num_scope.

Lemma consistent_fun l c a b : consistent l = true -> In (c, a) l -> In (c, b) l -> a = b.
Proof.
  unfold consistent. rewrite forallb_forall. intros H Ha Hb. apply H in Ha, Hb. apply Nat.eqb_eq in Ha, Hb. cbn [fst snd] in *. congruence.
Qed.
Lemma assign_mismatch acc (C T : tensor N) sC sT fs c a b :
  In (c, a) (combine sC (lens C)) -> In (c, b) (combine sT (lens T)) -> a <> b ->
  assign acc C sC [prodt ((T, sT) :: fs)] = Err CtfError.
Proof.
  intros Ha Hb Hn. unfold assign. cbn [forallb]. unfold term_ok. cbn [prodt facs dims flat_map fst snd].
  destruct (consistent _) eqn:E; [|rewrite !andb_false_r; cbn; rewrite ?andb_false_r; auto].
  exfalso. apply Hn. apply (consistent_fun _ c a b E); rewrite !in_app_iff; auto.
Qed.
Lemma in_combine_nth (s : str) (l : list nat) m : (m < length s)%nat -> (m < length l)%nat -> In (nth m s 0%Z, nth m l 0%nat) (combine s l).
Proof.
  revert l m. induction s as [|x s IH]; intros l m H1 H2; simpl in H1; [lia|]. destruct l as [|y l]; simpl in H2; [lia|].
  destruct m; simpl; auto. right. apply IH; lia.
Qed.

Section O5.
Context (V : tensor N).
Hypothesis H5 : order V = 5%nat.
Context (parent sibling : smap str).
Hypothesis Htree : tree_maps 5 parent sibling.

(** the node "ab" has length 5/2, so it is taken for a child of the root: modes d, e are not contracted *)
Lemma node_ab W fuel : shapes V W ->
  ttmc_map_DT (S fuel) sempty parent sibling V W (range_str 0 1) = Ok (sput sempty (range_str 0 1) (ttmc V W [2%nat])).
Proof.
  intros HS. destruct Htree as (Htr & _).
  assert (T2 : tsub 0 4 0 1 0 2 2 2).
  { apply (ts_inl 0 4 2); try lia; auto. apply (ts_left 0 2 1); try lia; auto. }
  destruct (Htr _ _ _ _ _ _ T2) as [E3 E4]. cbn [fst snd] in *.
  cbn [ttmc_map_DT]. change (@sempty (tensor N) (range_str 0 1)) with (@None (tensor N)). cbn iota.
  rewrite H5. rewrite mk_seqV_ok. cbn [bind]. change (length (range_str 0 1)) with 2%nat. change (5 / 2)%nat with 2%nat. cbn [Nat.eqb orb bind].
  unfold sget. rewrite E4.
  destruct (sib_loop RL V ltac:(lia) W [] 2 2 HS) as (ly & El); [lia|auto|].
  rewrite (ttmc_nil RL) in El by apply HS. rewrite H5 in El. rewrite El. cbn [bind]. reflexivity.
Qed.
Lemma leaf_a : parent [chr 0] = Some (range_str 0 1) /\ sibling [chr 0] = Some (range_str 1 1).
Proof.
  destruct Htree as (Htr & _).
  assert (T1 : tsub 0 4 0 0 0 1 1 1).
  { apply (ts_inl 0 4 2); try lia; auto. apply (ts_inl 0 2 1); try lia; auto. apply (ts_left 0 1 0); try lia; auto. }
  destruct (Htr _ _ _ _ _ _ T1) as [E1 E2]. cbn [fst snd] in *. rewrite range_one in E1, E2. auto.
Qed.
Lemma dt_Y5 W fuel (Y : tensor N) : shapes V W -> order Y = 5%nat ->
  dt_Y (S fuel) parent sibling V W (lbuf 5) Y sempty (lbuf 5) 0 =
  (Y' <- assign false Y (lset (letters chr 5) 1 ch_star) [prodt [(ttmc V W [2%nat], letters chr 5); (fac W 1, [chr 1; ch_star])]] ;;
   Ok (sput sempty (range_str 0 1) (ttmc V W [2%nat]), Y', lbuf 5)).
Proof.
  intros HS OY. pose proof HS as (HV & LW & HW). destruct leaf_a as [E1 E2].
  unfold dt_Y, sget. rewrite E1, E2. change (@sempty (tensor N) (range_str 0 1)) with (@None (tensor N)). cbn iota.
  rewrite node_ab by auto. cbn [bind]. unfold tget. rewrite sput_eq. cbn [length range_str map seq Nat.eqb Nat.add Nat.sub].
  change (str_at [chr 0; chr 1] 0) with (Ok (chr 0)). change (str_at [chr 0; chr 1] 1) with (Ok (chr 1)). cbn [bind].
  rewrite Z.eqb_refl. rewrite ix_chr by lia. cbn [bind]. rewrite (lget_ok W 1 tnil) by lia. cbn [bind]. fold (fac W 1).
  rewrite lbuf_sb. rewrite sb_bset by (rewrite letters_len; lia). cbn [bind].
  rewrite assign_b_sb2; [|rewrite lset_length, letters_len; auto|rewrite letters_len, ttmc_order; auto|apply (mat_order _ _ _ (HW 1%nat ltac:(lia)))].
  destruct (assign _ _ _ _) as [Y'|e]; reflexivity.
Qed.

Context (ranks : list nat).
Lemma Y0_lens : length ranks = 5%nat -> order (zeros (lset ranks 0 (nth 0 (lens V) 0%nat)) : tensor N) = 5%nat.
Proof. intros. unfold order. cbn [zeros tabulate lens]. rewrite lset_length. auto. Qed.

Lemma sweep5 (core : tensor N) W Y_end fuel : tucker_ok V W ranks ->
  nth 3 ranks 0%nat <> nth 3 (lens V) 0%nat \/ nth 4 ranks 0%nat <> nth 4 (lens V) 0%nat ->
  Tucker_DT_sweep LA (S fuel) parent sibling V core (lbuf 5) (W, Y_end, ranks, lbuf 5) = Err CtfError.
Proof.
  intros HW Hne. pose proof HW as (HV & LW & LR & HM). pose proof (tucker_shapes _ _ _ HW) as HS.
  unfold Tucker_DT_sweep. rewrite H5. rewrite for_first by lia. unfold Tucker_DT_mode at 1.
  rewrite (lget_ok (lens V) 0 0%nat) by (fold (order V); lia). cbn [bind]. rewrite lput_ok by lia. cbn [bind].
  rewrite (lget_ok W 0 tnil) by lia. cbn [bind]. rewrite lput_ok by (rewrite lset_length; lia). cbn [bind].
  rewrite dt_Y5 by (auto; apply Y0_lens; lia).
  set (Y := zeros (lset ranks 0 (nth 0 (lens V) 0%nat))).
  assert (Hm : forall m, (m = 3 \/ m = 4)%nat -> nth m ranks 0%nat <> nth m (lens V) 0%nat ->
     assign false Y (lset (letters chr 5) 1 ch_star) [prodt [(ttmc V W [2%nat], letters chr 5); (fac W 1, [chr 1; ch_star])]] = Err CtfError).
  { intros m Hm Hn. apply (assign_mismatch false _ _ _ _ _ (chr m) (nth m ranks 0%nat) (nth m (lens V) 0%nat)); auto.
    - replace (chr m) with (nth m (lset (letters chr 5) 1 ch_star) 0%Z).
      + replace (nth m ranks 0%nat) with (nth m (lens Y) 0%nat).
        * apply in_combine_nth; [rewrite lset_length, letters_len; lia|]. unfold Y. cbn [zeros tabulate lens]. rewrite lset_length. lia.
        * unfold Y. cbn [zeros tabulate lens]. apply lset_other. lia.
      + rewrite lset_other by lia. apply letters_nth. lia.
    - replace (chr m) with (nth m (letters chr 5) 0%Z) by (apply letters_nth; lia).
      replace (nth m (lens V) 0%nat) with (nth m (lens (ttmc V W [2%nat])) 0%nat).
      + apply in_combine_nth; [rewrite letters_len; lia|]. change (length (lens (ttmc V W [2%nat]))) with (order (ttmc V W [2%nat])). rewrite ttmc_order. lia.
      + cbn [ttmc tabulate lens]. rewrite ttmc_lens_nth by lia. rewrite existsb_not; auto. intros [E|[]]. lia. }
  destruct Hne as [Hn|Hn]; [rewrite (Hm 3%nat ltac:(lia) Hn)|rewrite (Hm 4%nat ltac:(lia) Hn)]; reflexivity.
Qed.
(** where the shapes happen to agree, the first factor is computed from the wrong tensor *)
Lemma Y5 W fuel : tucker_ok V W ranks ->
  nth 3 ranks 0%nat = nth 3 (lens V) 0%nat -> nth 4 ranks 0%nat = nth 4 (lens V) 0%nat ->
  exists mp', dt_Y (S fuel) parent sibling V W (lbuf 5) (zeros (lset ranks 0 (nth 0 (lens V) 0%nat))) sempty (lbuf 5) 0
   = Ok (mp', ttmc V W [1%nat; 2%nat], lbuf 5).
Proof.
  intros HW E3 E4. pose proof HW as (HV & LW & LR & HM). pose proof (tucker_shapes _ _ _ HW) as HS.
  rewrite dt_Y5 by (auto; apply Y0_lens; lia).
  replace (letters chr 5) with (letters chr (order V)) by (rewrite H5; auto).
  rewrite (ttm_step RL false _ V W [2%nat] 1 ch_star HS).
  - cbn [bind]. eexists. reflexivity.
  - lia.
  - lia.
  - intros [E|[]]. lia.
  - apply star_fresh. lia.
  - cbn [zeros tabulate lens]. rewrite <- ttmc_cons_lens by lia.
    apply nth_eq_ext with (d:=0%nat); [rewrite lset_length, ttmc_lens_length; lia|].
    intros m Hm. rewrite lset_length, LR in Hm. rewrite ttmc_lens_nth by auto.
    rewrite (mat_ncol _ _ _ (HM m Hm)). rewrite H5 in Hm.
    do 5 (destruct m as [|m]; [cbn; rewrite ?lset_same, ?lset_other by lia; auto|]); try lia.
Qed.
End O5.

(** order 3: mode 2 asks for the root, whose parent is the empty string, whose parent is the empty string, ... *)
Section O3.
Context (V : tensor N).
Hypothesis H3 : order V = 3%nat.
Context (parent sibling : smap str).
Hypothesis Htree : tree_maps 3 parent sibling.

Lemma tbad3 fuel W mp sq Y seq_Y : mp (range_str 0 2) = None -> mp [] = None ->
  dt_Y fuel parent sibling V W sq Y mp seq_Y 2 = Err OutOfFuel.
Proof.
  intros Hmp Hmp0. destruct Htree as (Htr & Hn).
  assert (T1 : tsub 0 2 2 2 0 2 0 1) by (apply (ts_right 0 2 1); try lia; auto).
  destruct (Htr _ _ _ _ _ _ T1) as [E1 E2]. cbn [fst snd] in *.
  assert (E3 : parent (range_str 0 2) = None).
  { destruct (Hn (range_str 0 2)) as [E3 _]; auto. intros x y pa pb sa sb0 H. pose proof (tsub_bounds _ _ _ _ _ _ _ _ H).
    apply range_ne; lia. }
  assert (E4 : parent [] = None).
  { destruct (Hn []) as [E4 _]; auto. intros x y pa pb sa sb0 H E0. apply tsub_bounds in H.
    apply (f_equal (@length Z)) in E0. rewrite range_str_length in E0. simpl in E0. lia. }
  assert (HE : forall f, ttmc_map_DT f mp parent sibling V W [] = Err OutOfFuel).
  { induction f; auto. cbn [ttmc_map_DT].
    rewrite Hmp0. unfold sget. rewrite E4, H3. rewrite mk_seqV_ok. change (3 / 2)%nat with 1%nat. cbn [bind length Nat.eqb orb Nat.add]. rewrite Hmp0, IHf. auto. }
  unfold dt_Y. rewrite range_one in E1, E2. unfold sget. rewrite E1, E2, Hmp.
  destruct fuel; [reflexivity|].
  cbn [ttmc_map_DT]. rewrite Hmp.
  unfold sget. rewrite E3, H3, mk_seqV_ok. change (length (range_str 0 2)) with 3%nat. change (3 / 2)%nat with 1%nat. cbn [bind Nat.eqb orb Nat.add].
  rewrite Hmp0, HE. reflexivity.
Qed.
Lemma ttmc_map3 fuel W mp mp' : mp (range_str 0 1) = None ->
  ttmc_map_DT fuel mp parent sibling V W (range_str 0 1) = Ok mp' -> exists T, mp' = sput mp (range_str 0 1) T.
Proof.
  intros Emap Emp. destruct fuel; [discriminate|]. cbn [ttmc_map_DT] in Emp. rewrite Emap, H3, mk_seqV_ok in Emp.
  change (length (range_str 0 1)) with 2%nat in Emp. change (3 / 2)%nat with 1%nat in Emp. cbn [bind Nat.eqb orb Nat.add] in Emp.
  apply bind_ok in Emp as ([[T a] b] & _ & Emp). injection Emp as <-. eauto.
Qed.
Lemma dt_Y_map3 fuel W mp i sq Y seq_Y mp' Y' seq' : (i < 2)%nat ->
  dt_Y fuel parent sibling V W sq Y mp seq_Y i = Ok (mp', Y', seq') -> mp' = mp \/ exists T, mp' = sput mp (range_str 0 1) T.
Proof.
  intros Hi E. destruct Htree as (Htr & Hn).
  assert (T1 : exists s, tsub 0 2 i i 0 1 s s /\ (s < 2)%nat).
  { destruct (Nat.eq_dec i 0) as [->|]; [exists 1%nat|assert (i = 1%nat) as -> by lia; exists 0%nat].
    - split; auto. apply (ts_inl 0 2 1); try lia; auto. apply (ts_left 0 1 0); try lia; auto.
    - split; auto. apply (ts_inl 0 2 1); try lia; auto. apply (ts_right 0 1 0); try lia; auto. }
  destruct T1 as (s & T1 & Hs). destruct (Htr _ _ _ _ _ _ T1) as [E1 E2]. cbn [fst snd] in *.
  unfold dt_Y in E. rewrite range_one in E1, E2. unfold sget in E. rewrite E1, E2 in E.
  apply bind_ok in E as (mp1 & Emp & E).
  assert (Hmp1 : mp1 = mp').
  { rewrite range_str_length in E. replace (s + 1 - s)%nat with 1%nat in E by lia. cbn [Nat.eqb] in E.
    do 7 (apply bind_ok in E as (? & _ & E)). injection E as -> _ _. auto. }
  subst mp1. destruct (mp (range_str 0 1)) eqn:Emap; [injection Emp as <-; auto|]. right. eapply ttmc_map3; eauto.
Qed.
Lemma tmode3 fuel core sq i st st' : (i < 2)%nat ->
  Tucker_DT_mode LA fuel parent sibling V core sq i st = Ok st' ->
  let '(W, mp, _, _, _) := st in let '(W', mp', _, _, _) := st' in mp' = mp \/ exists T, mp' = sput mp (range_str 0 1) T.
Proof.
  intros Hi E. destruct st as [[[[W mp] Ye] ly] sy]. destruct st' as [[[[W' mp'] Ye'] ly'] sy'].
  unfold Tucker_DT_mode in E. do 4 (apply bind_ok in E as (? & _ & E)).
  apply bind_ok in E as ([[mp2 Y2] s2] & EM & E). apply bind_ok in E as (? & _ & E).
  apply bind_ok in E as ([? ?] & _ & E). apply bind_ok in E as (? & _ & E). injection E as _ <- _ _ _.
  eapply dt_Y_map3; eauto.
Qed.
Lemma tbad3_sweep fuel core sq st r : Tucker_DT_sweep LA fuel parent sibling V core sq st <> Ok r.
Proof.
  intros E. unfold Tucker_DT_sweep in E. destruct st as [[[W Ye] ly] sy]. apply bind_ok in E as (st & E & _). rewrite H3 in E.
  rewrite for_first in E by lia. apply bind_ok in E as (st1 & E1 & E).
  rewrite for_first in E by lia. apply bind_ok in E as (st2 & E2 & E).
  rewrite for_first in E by lia. apply bind_ok in E as (st3 & E3 & E).
  apply tmode3 in E1; auto. apply tmode3 in E2; auto.
  destruct st1 as [[[[W1 mp1] Y1] l1] s1]. destruct st2 as [[[[W2 mp2] Y2] l2] s2].
  assert (Hm : forall s, s <> range_str 0 1 -> mp2 s = None).
  { intros s Hs. destruct E1 as [->|[T1 ->]]; destruct E2 as [->|[T2 ->]]; rewrite ?sput_neq by auto; auto. }
  unfold Tucker_DT_mode in E3. do 4 (apply bind_ok in E3 as (? & _ & E3)). apply bind_ok in E3 as (? & EM & _).
  rewrite tbad3 in EM; [discriminate|apply Hm; apply range_ne; lia|apply Hm; discriminate].
Qed.
End O3.
End P.
