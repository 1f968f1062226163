(** Where KhatriRao_contract fails: unequal mode lengths, and orders 11 and above *)
From Coq Require Import List ZArith Lia Bool Arith Permutation Ring.
From Verif Require Import Base Num Tensor Spec MCommon PBase PTensor PSum PMttkrp PMat PKhatri PGrad.
Import ListNotations.

Lemma inconsistent l c a b : In (c, a) l -> In (c, b) l -> a <> b -> consistent l = false.
Proof.
  intros Ha Hb Hab. destruct (consistent l) eqn:E; auto. exfalso. apply Hab.
  unfold consistent in E. rewrite forallb_forall in E.
  pose proof (E _ Ha) as E1. pose proof (E _ Hb) as E2. simpl in *.
  apply Nat.eqb_eq in E1, E2. congruence.
Qed.
Lemma in_combine_nth (s : list Z) (l : list nat) i : i < length s -> i < length l ->
  In (nth i s 0%Z, nth i l 0) (combine s l).
Proof.
  revert l i. induction s; destruct l, i; simpl; intros; try lia; auto. right. apply IHs; lia.
Qed.

Lemma for_first_err {St} lo hi (body : nat -> St -> res St) s e :
  lo < hi -> body lo s = Err e -> for_ lo hi body s = Err e.
Proof. intros H E. unfold for_. destruct (hi - lo) eqn:D; [lia|]. cbn [loop]. rewrite E. reflexivity. Qed.

Section P.
Context {N : num}.
Implicit Types (V M : tensor N) (W : list (tensor N)).

Lemma assign_bad acc (C : tensor N) sC t ts c a b :
  In (c, a) (dims ((C, sC) :: facs t)) -> In (c, b) (dims ((C, sC) :: facs t)) -> a <> b ->
  In t ts -> assign acc C sC ts = Err CtfError.
Proof.
  intros Ha Hb Hab Ht. unfold assign.
  assert (forallb (term_ok C sC) ts = false) as ->.
  { destruct (forallb (term_ok C sC) ts) eqn:E; auto. rewrite forallb_forall in E. specialize (E t Ht).
    unfold term_ok in E. rewrite (inconsistent _ c a b Ha Hb Hab) in E. rewrite andb_false_r in E. discriminate. }
  rewrite andb_false_r. auto.
Qed.

(** the first contraction *)
Lemma KR_first_err M V W idx LH x K :
  1 <= order V -> length idx = order V -> length LH = order V - 1 ->
  (exists W0 : tensor N, lget W 0 = Ok W0 /\ ncol W0 = K) ->
  (exists Wi : tensor N, lget W (nth 0 idx 0) = Ok Wi /\ order Wi = 2) ->
  (forall Wi, lget W (nth 0 idx 0) = Ok Wi ->
    assign false (zeros (LH ++ [K])) (map chr (tl idx) ++ [ch_k])
           [prodt [(V, map chr (seq 0 (order V))); (Wi, [chr (nth 0 idx 0); ch_k])]] = Err CtfError) ->
  KhatriRao_contract M V W (map Some idx) (map Some (LH ++ [x])) = Err CtfError.
Proof.
  intros Ho HL HLH (W0 & EW0 & EK) (Wi & EWi & HoWi) Hbad. unfold KhatriRao_contract.
  rewrite EW0. cbn [bind]. rewrite EK. set (o := order V) in *.
  assert (Hbi : forall i, i < o -> bget (map Some idx) i = Ok (nth i idx 0)) by (intros; apply bget_map; lia).
  bsets. rewrite Hbi by lia. cbn [bind]. bsets.
  fillwith 0 chr (o + 1) Lq Pq. { intros j b Hj Hb. f_equal; lia. }
  fillwith 0 (fun jj => chr (nth jj idx 0)) (o + 1) Lf Pf.
  { intros j b' Hj Hb'. rewrite Hbi by lia. cbn [bind]. f_equal; lia. }
  assert (o =? 0 = false) as -> by (apply Nat.eqb_neq; lia). bsets.
  fillwith 0 (fun m => nth m LH 0) o Ll Pl.
  { intros j b' Hj Hb'. rewrite (bget_map _ _ 0) by (rewrite app_length; simpl; lia).
    rewrite app_nth1 by lia. cbn [bind]. f_equal; lia. }
  bsets.
  rewrite (take_zeros o _ (LH ++ [K])).
  2:{ apply take_list with (d:=0); [rewrite app_length; simpl; lia|].
      intros i Hi. rewrite lset_nth_error, Pl, nth_snoc. natcases; simpl; auto. do 2 f_equal. f_equal. lia. }
  cbn [bind]. rewrite EWi. cbn [bind].
  rewrite (assign_b_ok _ _ _ (map chr (tl idx) ++ [ch_k]) [(V, map chr (seq 0 o)); (Wi, [chr (nth 0 idx 0); ch_k])]).
  2:{ assert (Htl : length (tl idx) = o - 1) by (destruct idx; simpl in *; lia).
      unfold order. cbn [zeros tabulate lens]. apply take_list with (d:=0%Z).
      - rewrite !app_length, map_length, HLH, Htl. auto.
      - rewrite app_length, HLH. simpl length. intros i Hi.
        rewrite lset_nth_error, Pf, nth_snoc, map_length, Htl. natcases; cbn [andb]; auto.
        do 2 f_equal. rewrite (nth_map_lt _ _ _ 0) by lia. f_equal. destruct idx; simpl in *; [lia|].
        f_equal. lia. }
  2:{ apply tixs2.
      - fold o. apply take_list with (d:=0%Z); [rewrite map_length, seq_length; auto|].
        intros i Hi. rewrite Pq. rewrite (nth_map_lt _ _ _ 0) by (rewrite seq_length; auto).
        rewrite nth_seq by auto. natcases. simpl. do 3 f_equal. lia.
      - rewrite HoWi. reflexivity. }
  rewrite (Hbad Wi EWi). reflexivity.
Qed.

(** order >= 11: the letter of mode 10 is the rank letter *)
Theorem KhatriRao_contract_order11 M V W R s idx :
  11 <= order V -> lens V = repeat s (order V) -> factors_ok V W R -> s <> R ->
  Permutation idx (seq 0 (order V)) ->
  KhatriRao_contract M V W (map Some idx) (map Some (repeat s (order V - 1) ++ [R])) = Err CtfError.
Proof.
  intros Ho Hc HW Hne Hp. pose proof HW as (_ & HL & HWm).
  assert (HLi : length idx = order V) by (rewrite (Permutation_length Hp), seq_length; auto).
  assert (Hlt : nth 0 idx 0 < order V).
  { assert (H : In (nth 0 idx 0) idx) by (apply nth_In; lia). apply (Permutation_in _ Hp), in_seq in H. lia. }
  eapply KR_first_err with (K := R); auto.
  - lia.
  - apply repeat_length.
  - exists (fac W 0). split; [apply lget_ok; lia|]. destruct (HWm 0) as [E _]; [lia|]. unfold ncol. rewrite E. auto.
  - exists (fac W (nth 0 idx 0)). split; [apply lget_ok; lia|]. destruct (HWm _ Hlt) as [E _]. unfold order. rewrite E. auto.
  - intros Wi EWi. rewrite (lget_ok _ _ tnil) in EWi by lia. injection EWi as <-.
    eapply (assign_bad _ _ _ _ _ ch_k s R); [| |auto|left; reflexivity].
    + unfold prodt. cbn [facs]. unfold dims. cbn [flat_map]. apply in_or_app. right. apply in_or_app. left. cbn [fst snd].
      pose proof (in_combine_nth (map chr (seq 0 (order V))) (lens V) 10) as H.
      rewrite map_length, seq_length in H. change (length (lens V)) with (order V) in H.
      rewrite (nth_map_lt _ _ _ 0) in H by (rewrite seq_length; lia). rewrite nth_seq in H by lia.
      assert (E10 : nth 10 (lens V) 0 = s) by (rewrite Hc; apply nth_rep; lia).
      rewrite E10 in H. apply H; lia.
    + unfold prodt. cbn [facs]. unfold dims. cbn [flat_map]. apply in_or_app. right. apply in_or_app. right. cbn [fst snd].
      destruct (HWm _ Hlt) as [E _]. change (nth (nth 0 idx 0) W tnil) with (fac W (nth 0 idx 0)). rewrite E.
      simpl. auto.
Qed.

(** unequal mode lengths *)
Theorem KhatriRao_contract_unequal M V W R idx m :
  1 <= order V -> factors_ok V W R ->
  Permutation idx (seq 0 (order V)) ->
  S m < order V -> nth (nth m idx 0) (lens V) 0 <> nth (nth (S m) idx 0) (lens V) 0 ->
  KhatriRao_contract M V W (map Some idx)
    (map Some (map (fun k => nth k (lens V) 0) (firstn (order V - 1) idx) ++ [R])) = Err CtfError.
Proof.
  intros Ho HW Hp Hm Hne. pose proof HW as (_ & HL & HWm).
  assert (HLi : length idx = order V) by (rewrite (Permutation_length Hp), seq_length; auto).
  assert (Hlt : forall k, k < order V -> nth k idx 0 < order V).
  { intros k Hk. assert (H : In (nth k idx 0) idx) by (apply nth_In; lia). apply (Permutation_in _ Hp), in_seq in H. lia. }
  eapply KR_first_err with (K := R); auto.
  - rewrite map_length, firstn_length. lia.
  - exists (fac W 0). split; [apply lget_ok; lia|]. destruct (HWm 0) as [E _]; [lia|]. unfold ncol. rewrite E. auto.
  - exists (fac W (nth 0 idx 0)). specialize (Hlt 0 ltac:(lia)). split; [apply lget_ok; lia|]. destruct (HWm _ Hlt) as [E _]. unfold order. rewrite E. auto.
  - intros Wi EWi.
    eapply (assign_bad _ _ _ _ _ (chr (nth (S m) idx 0))); [| |exact Hne|left; reflexivity].
    + unfold dims. cbn [flat_map]. apply in_or_app. left. cbn [fst snd zeros tabulate lens].
      pose proof (in_combine_nth (map chr (tl idx) ++ [ch_k]) (map (fun k => nth k (lens V) 0) (firstn (order V - 1) idx) ++ [R]) m) as H.
      assert (Htl : length (tl idx) = order V - 1) by (destruct idx; simpl in *; lia).
      rewrite !app_length, !map_length, firstn_length, Htl in H. simpl length in H.
      rewrite !nth_snoc, !map_length, firstn_length, Htl in H.
      assert (m <? order V - 1 = true) as E1 by (apply Nat.ltb_lt; lia).
      assert (m <? Nat.min (order V - 1) (length idx) = true) as E2 by (apply Nat.ltb_lt; lia).
      rewrite E1, E2 in H.
      rewrite (nth_map_lt _ (tl idx) _ 0) in H by lia.
      rewrite (nth_map_lt _ (firstn _ idx) _ 0) in H by (rewrite firstn_length; lia).
      rewrite nth_firstn in H by lia.
      replace (nth m (tl idx) 0) with (nth (S m) idx 0) in H by (destruct idx; simpl in *; auto; destruct m; auto).
      apply H; lia.
    + unfold prodt. cbn [facs]. unfold dims. cbn [flat_map]. apply in_or_app. right. apply in_or_app. left. cbn [fst snd].
      pose proof (in_combine_nth (map chr (seq 0 (order V))) (lens V) (nth (S m) idx 0)) as H.
      specialize (Hlt (S m) ltac:(lia)).
      rewrite map_length, seq_length in H. change (length (lens V)) with (order V) in H.
      rewrite (nth_map_lt _ _ _ 0) in H by (rewrite seq_length; lia). rewrite nth_seq in H by lia.
      apply H; lia.
Qed.

(** the same, seen from gradient_CP: any tensor with two unequal mode lengths is rejected *)
Lemma unequal_adjacent (w : list nat) (f : nat -> nat) :
  (forall m, S m < length w -> f (nth m w 0) = f (nth (S m) w 0)) ->
  forall a, a < length w -> f (nth a w 0) = f (nth 0 w 0).
Proof. intros H a. induction a; intros Ha; auto. rewrite <- H by lia. apply IHa. lia. Qed.
Theorem gradient_CP_unequal V W G R :
  2 <= order V <= 31 -> factors_ok V W R ->
  (exists a b, a < order V /\ b < order V /\ nth a (lens V) 0 <> nth b (lens V) 0) ->
  gradient_CP V W G = Err CtfError.
Proof.
  intros Ho HW (a & b & Ha & Hb & Hab). unfold gradient_CP. set (o := order V) in *.
  pose proof HW as (_ & HLW & HWm). fold o in HLW, HWm.
  rewrite bset_ok by blen. cbn [bind].
  rewrite (fill_letters_lbuf o) by (apply bset_ok; blen). cbn [bind].
  rewrite (lget_ok W 0 tnil) by lia. cbn [bind].
  match goal with |- bind ?x _ = _ => assert (Hx : x = Err CtfError); [|rewrite Hx; reflexivity] end.
  apply for_first_err; [lia|].
  rewrite swap_lbuf by lia. cbn [bind]. rewrite (lget_ok W 0 tnil) by lia. cbn [bind].
  rewrite (make_index_ok o 0 _ _ (fun m => nth m (lens V) 0)); [|lia|lia|].
  2:{ intros m Hm. rewrite (lget_ok _ _ 0); auto. }
  cbn [bind].
  assert (HLs : length (swapped o 0) = o) by (unfold swapped; rewrite swapl_length, seq_length; auto).
  assert (Hex : exists m, S m < o /\ nth (nth m (swapped o 0) 0) (lens V) 0 <> nth (nth (S m) (swapped o 0) 0) (lens V) 0).
  { destruct (Forall_Exists_dec (fun m => nth (nth m (swapped o 0) 0) (lens V) 0 = nth (nth (S m) (swapped o 0) 0) (lens V) 0)
       (fun m => Nat.eq_dec _ _) (seq 0 (o - 1))) as [HF|HE].
    - exfalso. apply Hab. rewrite Forall_forall in HF.
      assert (Hall : forall k, k < o -> nth k (lens V) 0 = nth (nth 0 (swapped o 0) 0) (lens V) 0).
      { intros k Hk. assert (Hin : In k (swapped o 0)).
        { apply (Permutation_in _ (Permutation_sym (swapped_perm o 0 ltac:(lia)))), in_seq. lia. }
        apply In_nth with (d:=0) in Hin as (j & Hj & <-).
        apply (unequal_adjacent (swapped o 0) (fun k => nth k (lens V) 0)); auto.
        intros m Hm. apply HF. apply in_seq. lia. }
      rewrite (Hall a), (Hall b); auto.
    - apply Exists_exists in HE as (m & Hm & Hne). apply in_seq in Hm. exists m. split; auto. lia. }
  destruct Hex as (m & Hm & Hne).
  assert (ncol (nth 0 W tnil) = R) as ->.
  { destruct (HWm 0) as [E _]; [lia|]. unfold ncol. change (nth 0 W tnil) with (fac W 0). rewrite E. auto. }
  rewrite (KhatriRao_contract_unequal _ V W R (swapped o 0) m); auto.
  - lia.
  - apply swapped_perm. lia.
Qed.
End P.

Definition V11 : tensor Znum := tabulate (repeat 2 11) (fun _ => 1%Z : Znum).
Definition W11 : list (tensor Znum) := repeat (tabulate [2; 2] (fun _ => 1%Z : Znum)) 11.
Definition M11 : tensor Znum := mkT [2; 2] [1024%Z : Znum; 0%Z : Znum; 0%Z : Znum; 1024%Z : Znum].
Lemma order11_wrong :
  exists (V : tensor Znum) (W : list (tensor Znum)) (M : tensor Znum),
  order V = 11 /\ lens V = repeat 2 11 /\ length W = 11 /\ (forall m, m < 11 -> is_mat (fac W m) 2 2) /\ wf V /\
  KhatriRao_contract (zeros [2; 2]) V W (map Some (seq 0 11)) (map Some (repeat 2 10 ++ [2])) = Ok M /\
  M <> mttkrp V W 10 2.
Proof.
  exists V11, W11, M11. split; [reflexivity|]. split; [reflexivity|]. split; [reflexivity|]. split.
  { intros m Hm. do 11 (destruct m as [|m]; [split; reflexivity|]). lia. }
  split; [vm_compute; reflexivity|]. split; [vm_compute; reflexivity|].
  intros E. apply (f_equal (fun T : tensor Znum => nth 1 (data T) (n0 : Znum))) in E. vm_compute in E. discriminate.
Qed.
