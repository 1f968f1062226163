(** Lemmas about Base.v *)
From Coq Require Import List ZArith Lia Bool Arith.
From Verif Require Import Base.
Import ListNotations.

Lemma bind_ok {A B} (x : res A) (f : A -> res B) b :
  bind x f = Ok b -> exists a, x = Ok a /\ f a = Ok b.
Proof. destruct x; simpl; intros H; [eauto|discriminate]. Qed.

Lemma loop_inv {S} (P : nat -> S -> Prop) body n i s :
  P i s ->
  (forall j s, i <= j < i + n -> P j s -> exists s', body j s = Ok s' /\ P (Datatypes.S j) s') ->
  exists s', loop n i body s = Ok s' /\ P (i + n) s'.
Proof.
  revert i s. induction n as [|n IH]; intros i s H0 Hs; simpl.
  - exists s. rewrite Nat.add_0_r. auto.
  - destruct (Hs i s) as [s1 [E1 P1]]; [lia|auto|]. rewrite E1. simpl.
    destruct (IH (Datatypes.S i) s1 P1) as [s2 [E2 P2]].
    + intros j s' Hj. apply Hs. lia.
    + exists s2. split; auto. replace (i + Datatypes.S n) with (Datatypes.S i + n) by lia. auto.
Qed.

Lemma for_inv {S} (P : nat -> S -> Prop) body lo hi s :
  lo <= hi -> P lo s ->
  (forall j s, lo <= j < hi -> P j s -> exists s', body j s = Ok s' /\ P (Datatypes.S j) s') ->
  exists s', for_ lo hi body s = Ok s' /\ P hi s'.
Proof.
  intros Hle H0 Hs. unfold for_.
  destruct (loop_inv P body (hi - lo) lo s H0) as [s' [E P']].
  - intros j s1 Hj. apply Hs. lia.
  - exists s'. split; auto. replace hi with (lo + (hi - lo)) by lia. auto.
Qed.

Lemma for_empty {S} (body : nat -> S -> res S) lo hi s : hi <= lo -> for_ lo hi body s = Ok s.
Proof. intros. unfold for_. replace (hi - lo) with 0 by lia. reflexivity. Qed.

Lemma loop_ext {S} (body body' : nat -> S -> res S) n i s :
  (forall j s, i <= j < i + n -> body j s = body' j s) -> loop n i body s = loop n i body' s.
Proof.
  revert i s. induction n; intros i s H; simpl; auto.
  rewrite H by lia. destruct (body' i s); simpl; auto. apply IHn. intros. apply H. lia.
Qed.

(** ** lset *)
Lemma lset_length {A} (l : list A) i a : length (lset l i a) = length l.
Proof. revert i; induction l; destruct i; simpl; auto. Qed.
Lemma lset_nth_error {A} (l : list A) i a k :
  nth_error (lset l i a) k = if Nat.eqb k i then (if i <? length l then Some a else None) else nth_error l k.
Proof.
  revert i k; induction l as [|x l IH]; intros i k; destruct i, k; simpl; auto.
  - destruct (Nat.eqb k i); auto.
  - rewrite IH. destruct (Nat.eqb_spec k i); auto.
Qed.
Lemma lset_nth {A} (l : list A) i a k d :
  i < length l -> nth k (lset l i a) d = if Nat.eqb k i then a else nth k l d.
Proof.
  revert i k; induction l as [|x l IH]; intros i k H; [simpl in H; lia|].
  destruct i, k; simpl; auto. simpl in H. rewrite IH by lia. reflexivity.
Qed.
Lemma nth_error_nth_some {A} (l : list A) i d : i < length l -> nth_error l i = Some (nth i l d).
Proof. revert i; induction l; destruct i; simpl; intros; try lia; auto. apply IHl; lia. Qed.

Lemma bset_ok {A} (b : buf A) i a : i < length b -> bset b i a = Ok (lset b i (Some a)).
Proof. intros H. unfold bset. apply Nat.ltb_lt in H. rewrite H. auto. Qed.
Lemma lget_ok {A} (l : list A) i d : i < length l -> lget l i = Ok (nth i l d).
Proof. intros H. unfold lget. rewrite (nth_error_nth_some l i d H). auto. Qed.
Lemma lput_ok {A} (l : list A) i a : i < length l -> lput l i a = Ok (lset l i a).
Proof. intros H. unfold lput. apply Nat.ltb_lt in H. rewrite H. auto. Qed.

Lemma loop_split {St} n m i (body : nat -> St -> res St) s :
  loop (n + m) i body s = (s' <- loop n i body s ;; loop m (i + n) body s').
Proof.
  revert i s. induction n as [|n IH]; intros i s; cbn [loop Nat.add].
  - rewrite Nat.add_0_r. reflexivity.
  - destruct (body i s); cbn [bind]; [|reflexivity]. rewrite IH, Nat.add_succ_comm. reflexivity.
Qed.
Lemma for_split {St} lo mid hi (body : nat -> St -> res St) s : lo <= mid <= hi ->
  for_ lo hi body s = (s' <- for_ lo mid body s ;; for_ mid hi body s').
Proof.
  intros H. unfold for_. replace (hi - lo) with ((mid - lo) + (hi - mid)) by lia. rewrite loop_split.
  replace (lo + (mid - lo)) with mid by lia. reflexivity.
Qed.
Lemma for_first {St} lo hi (body : nat -> St -> res St) s : lo < hi ->
  for_ lo hi body s = (s' <- body lo s ;; for_ (S lo) hi body s').
Proof. intros H. unfold for_. replace (hi - lo) with (S (hi - S lo)) by lia. reflexivity. Qed.

(** ** contents of buffers, pointwise *)
Lemma newbuf_length {A} n : length (@newbuf A n) = n.
Proof. apply repeat_length. Qed.

Lemma take_spec {A} n (b : buf A) (g : nat -> A) :
  (forall i, i < n -> nth_error b i = Some (Some (g i))) -> take n b = Ok (map g (seq 0 n)).
Proof.
  revert b g. induction n as [|n IH]; intros b g H; simpl; auto.
  destruct b as [|o b]; [specialize (H 0); simpl in H; discriminate H; lia|].
  assert (H0 := H 0 (Nat.lt_0_succ n)). simpl in H0. injection H0 as ->.
  rewrite (IH b (fun i => g (S i))).
  - simpl. rewrite <- seq_shift, map_map. auto.
  - intros i Hi. apply (H (S i)). lia.
Qed.
Lemma take_list {A} n (b : buf A) (s : list A) d :
  length s = n ->
  (forall i, i < n -> nth_error b i = Some (Some (nth i s d))) -> take n b = Ok s.
Proof.
  intros L H. rewrite (take_spec n b (fun i => nth i s d) H). f_equal.
  apply nth_ext with (d:=d) (d':=d); rewrite map_length, seq_length; auto.
  intros k Hk. rewrite (nth_indep _ d (nth 0 s d)) by (rewrite map_length, seq_length; auto).
  rewrite (map_nth (fun i => nth i s d)), seq_nth; auto.
Qed.

(** a loop that fills consecutive cells *)
Lemma fill_loop {A} n i body off (g : nat -> A) (b : buf A) L :
  length b = L -> off + n <= L ->
  (forall j b, i <= j < i + n -> length b = L -> body j b = bset b (off + (j - i)) (g j)) ->
  exists b', loop n i body b = Ok b' /\ length b' = L /\
    forall k, nth_error b' k = if (off <=? k) && (k <? off + n) then Some (Some (g (i + (k - off))))
                               else nth_error b k.
Proof.
  intros HL Hoff Hb.
  destruct (loop_inv (fun j b' => length b' = L /\
    forall k, nth_error b' k = if (off <=? k) && (k <? off + (j - i)) then Some (Some (g (i + (k - off))))
                               else nth_error b k) body n i b) as [b' [E [L' P]]].
  - split; auto. intros k. replace (off + (i - i)) with off by lia.
    destruct (Nat.leb_spec off k), (Nat.ltb_spec k off); simpl; auto; lia.
  - intros j b1 Hj [L1 P1]. rewrite Hb by auto. rewrite bset_ok by lia.
    eexists; split; [reflexivity|]. split; [rewrite lset_length; auto|].
    intros k. rewrite lset_nth_error.
    assert (off + (j - i) <? length b1 = true) as -> by (apply Nat.ltb_lt; lia).
    destruct (Nat.eqb_spec k (off + (j - i))).
    + subst k.
      destruct (Nat.leb_spec off (off + (j - i))); [|lia].
      destruct (Nat.ltb_spec (off + (j - i)) (off + (S j - i))); [|lia]. simpl.
      do 3 f_equal. lia.
    + rewrite P1.
      destruct (Nat.leb_spec off k), (Nat.ltb_spec k (off + (j - i))), (Nat.ltb_spec k (off + (S j - i)));
        simpl; auto; lia.
  - exists b'. split; auto. split; auto. intros k. rewrite P.
    replace (i + n - i) with n by lia. auto.
Qed.

Lemma fill_for {A} lo hi body off (g : nat -> A) (b : buf A) L :
  length b = L -> off + (hi - lo) <= L ->
  (forall j b, lo <= j < hi -> length b = L -> body j b = bset b (off + (j - lo)) (g j)) ->
  exists b', for_ lo hi body b = Ok b' /\ length b' = L /\
    forall k, nth_error b' k = if (off <=? k) && (k <? off + (hi - lo)) then Some (Some (g (lo + (k - off))))
                               else nth_error b k.
Proof.
  intros HL Hoff Hb. unfold for_. apply fill_loop; auto.
  intros j b1 Hj. apply Hb. lia.
Qed.

(** ** strings *)
Lemma str_eqb_spec a b : reflect (a = b) (str_eqb a b).
Proof.
  revert b; induction a as [|x a IH]; destruct b as [|y b]; simpl; try (constructor; congruence).
  destruct (Z.eqb_spec x y); simpl; [|constructor; congruence].
  destruct (IH b); constructor; congruence.
Qed.
Lemma str_eqb_refl a : str_eqb a a = true.
Proof. destruct (str_eqb_spec a a); auto. Qed.
Lemma sput_eq {A} (m : smap A) k a : sput m k a k = Some a.
Proof. unfold sput. rewrite str_eqb_refl. auto. Qed.
Lemma sput_neq {A} (m : smap A) k k' a : k' <> k -> sput m k a k' = m k'.
Proof. intros. unfold sput. destruct (str_eqb_spec k' k); congruence. Qed.

(** ** characters *)
Lemma chr_small i : i <= 30 -> chr i = (97 + Z.of_nat i)%Z.
Proof. intros. unfold chr, to_char. rewrite Z.mod_small by lia. lia. Qed.
Lemma ix_chr i : i <= 30 -> ix (chr i) = Ok i.
Proof.
  intros. rewrite chr_small by auto. unfold ix.
  destruct (Z.ltb_spec (97 + Z.of_nat i - 97) 0); [lia|]. f_equal. lia.
Qed.
Lemma chr_inj i j : i <= 30 -> j <= 30 -> chr i = chr j -> i = j.
Proof. intros. rewrite !chr_small in * by auto. lia. Qed.
Lemma chr_ge i : i <= 30 -> (97 <= chr i <= 127)%Z.
Proof. intros. rewrite chr_small by auto. lia. Qed.

(** ** automation for buffer code *)
Ltac blen := rewrite ?lset_length, ?newbuf_length; try lia.
Ltac bsets := repeat (rewrite bset_ok by (blen); cbn [bind]).
(** run the first fill loop of the goal *)
Ltac fillcore off g L Lb Pb lo hi body b :=
    let b' := fresh "b" in let E := fresh "Efill" in
    destruct (fill_for lo hi body off g b L) as (b' & E & Lb & Pb);
    [ blen | lia | | rewrite E; cbn [bind] ].
Ltac fillwith off g L Lb Pb :=
  lazymatch goal with
  | |- bind (@for_ _ ?lo ?hi ?body ?b) _ = _ => fillcore off g L Lb Pb lo hi body b
  | |- exists x, bind (@for_ _ ?lo ?hi ?body ?b) _ = _ /\ _ => fillcore off g L Lb Pb lo hi body b
  end.
(** case analysis on the boolean comparisons of nat in the goal *)
Ltac natcases :=
  repeat match goal with
  | |- context [Nat.eqb ?a ?b] => destruct (Nat.eqb_spec a b); try lia
  | |- context [Nat.ltb ?a ?b] => destruct (Nat.ltb_spec a b); try lia
  | |- context [Nat.leb ?a ?b] => destruct (Nat.leb_spec a b); try lia
  end.

Lemma nth_snoc {A} (l : list A) x i d :
  nth i (l ++ [x]) d = if i <? length l then nth i l d else if Nat.eqb i (length l) then x else d.
Proof.
  destruct (Nat.ltb_spec i (length l)); [apply app_nth1; auto|].
  rewrite app_nth2 by lia. destruct (Nat.eqb_spec i (length l)).
  - subst. rewrite Nat.sub_diag. auto.
  - destruct (i - length l) as [|k] eqn:E; [lia|]. destruct k; auto.
Qed.
Lemma nth_app {A} (l m : list A) i d :
  nth i (l ++ m) d = if i <? length l then nth i l d else nth (i - length l) m d.
Proof. destruct (Nat.ltb_spec i (length l)); [apply app_nth1; auto|apply app_nth2; lia]. Qed.
Lemma nth_skipn {A} (l : list A) k i d : nth i (skipn k l) d = nth (k + i) l d.
Proof. revert k; induction l; destruct k; simpl; auto; destruct i; auto. Qed.
Lemma nth_firstn {A} (l : list A) k i d : i < k -> nth i (firstn k l) d = nth i l d.
Proof. revert k i; induction l; destruct k, i; simpl; intros; try lia; auto. apply IHl. lia. Qed.
Lemma nth_map_lt {A B} (f : A -> B) l i d d' : i < length l -> nth i (map f l) d' = f (nth i l d).
Proof. intros. rewrite (nth_indep _ d' (f d)) by (rewrite map_length; auto). apply map_nth. Qed.
Lemma nth_seq i a n d : i < n -> nth i (seq a n) d = a + i.
Proof. intros. rewrite seq_nth; auto. Qed.
Lemma skipn_cons_nth {A} (l : list A) k d : k < length l -> skipn k l = nth k l d :: skipn (S k) l.
Proof. revert l; induction k; destruct l; simpl; intros; try lia; auto. rewrite IHk by lia. auto. Qed.
Lemma firstn_snoc_nth {A} (l : list A) k d : k < length l -> firstn (S k) l = firstn k l ++ [nth k l d].
Proof. revert l; induction k; destruct l; simpl; intros; try lia; auto. rewrite <- IHk by lia. auto. Qed.
Lemma bget_map {A} (l : list A) i d : i < length l -> bget (map Some l) i = Ok (nth i l d).
Proof. intros. unfold bget. rewrite nth_error_map, (nth_error_nth_some l i d) by auto. auto. Qed.
Lemma map_chr_inj_len l l' : Forall (fun i => i <= 30) l -> Forall (fun i => i <= 30) l' -> map chr l = map chr l' -> l = l'.
Proof.
  intros H. revert l'. induction H; intros l' H' E; destruct l'; simpl in E; try discriminate; auto.
  inversion H'; subst. injection E as E1 E2. f_equal; auto. apply chr_inj; auto.
Qed.
Lemma nth_rep {A} (a d : A) m n : n < m -> nth n (repeat a m) d = a.
Proof. revert n; induction m; destruct n; simpl; intros; try lia; auto. apply IHm. lia. Qed.
Lemma NoDup_app_remove_l {A} (l l' : list A) : NoDup (l ++ l') -> NoDup l'.
Proof. induction l; simpl; auto. intros H. inversion H; auto. Qed.
Lemma NoDup_app_remove_r {A} (l l' : list A) : NoDup (l ++ l') -> NoDup l.
Proof. induction l; simpl; [constructor|]. intros H. inversion H; subst. constructor; auto. intros Hin. apply H2. apply in_or_app. auto. Qed.
