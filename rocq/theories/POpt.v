(** The optimizers of src/optimizer: trees, index vectors, subtree steps *)
From Coq Require Import List ZArith Lia Bool Arith Permutation Ring.
From Verif Require Import Base Num Tensor Spec Spec3 MCommon MCP MOpt PBase PTensor PSum PMttkrp PPart PMat PKhatri PGrad PMatAlg PResid
  PSolve PTree PDT PDTSweep PALS.
Import ListNotations.

(** ** strings *)
Lemma vec2str_ok vec : (forall v, In v vec -> v <= 30) -> vec2str vec = Ok (sstr vec).
Proof.
  intros H. unfold vec2str. set (n := length vec). cbv zeta. fold n.
  rewrite bset_ok by (rewrite newbuf_length; lia). cbn [bind].
  rewrite bset_ok by (rewrite lset_length, newbuf_length; lia). cbn [bind].
  set (b0 := lset _ _ _).
  destruct (for_inv (fun i b => length b = n + 2 /\ (forall k, k < i -> nth_error b k = Some (Some (chr (nth k vec 0)))) /\
     nth_error b n = Some (Some ch_star) /\ nth_error b (n + 1) = Some (Some 0%Z))
    (fun i b => v <- lget vec i ;; bset b i (chr v)) 0 n b0) as (b & E & HL & H1 & H2 & H3).
  - lia.
  - unfold b0. split; [rewrite !lset_length, newbuf_length; auto|]. split; [intros; lia|]. rewrite !lset_nth_error, !lset_length, !newbuf_length. 
    split.
    + rewrite Nat.eqb_refl. destruct (Nat.ltb_spec n (n + 2)); [auto|lia].
    + destruct (Nat.eqb_spec (n + 1) n); [lia|]. rewrite Nat.eqb_refl. destruct (Nat.ltb_spec (n + 1) (n + 2)); [auto|lia].
  - intros i b Hi (HL & H1 & H2 & H3). rewrite (lget_ok vec i 0) by (fold n; lia). cbn [bind]. rewrite bset_ok by lia.
    eexists; split; [reflexivity|]. rewrite lset_length. split; [auto|]. rewrite !lset_nth_error. split.
    + intros k Hk. rewrite lset_nth_error. destruct (Nat.eqb_spec k i) as [->|].
      * destruct (Nat.ltb_spec i (length b)); [auto|lia].
      * apply H1. lia.
    + destruct (Nat.eqb_spec n i); [lia|]. destruct (Nat.eqb_spec (n + 1) i); [lia|]. auto.
  - rewrite E. cbn [bind]. apply holds_cstr; [|apply sstr_nz; auto].
    split.
    + rewrite sstr_length. fold n. intros i Hi. unfold sstr. destruct (Nat.lt_ge_cases i n) as [Hl|Hg].
      * rewrite H1 by auto. rewrite app_nth1 by (rewrite map_length; auto). do 2 f_equal. symmetry. apply nth_map_lt. auto.
      * assert (i = n) by lia. subst i. rewrite H2. rewrite app_nth2 by (rewrite map_length; fold n; lia). rewrite map_length. fold n. rewrite Nat.sub_diag. auto.
    + rewrite sstr_length. fold n. auto.
Qed.
Lemma sstr_inj a b : (forall v, In v a -> v <= 30) -> (forall v, In v b -> v <= 30) -> sstr a = sstr b -> a = b.
Proof.
  intros Ha Hb E. unfold sstr in E. apply app_inj_tail in E as [E _]. apply map_chr_inj_len in E; auto; apply Forall_forall; auto.
Qed.
(** nodes: positions 0..j-1 and i *)
Definition nd (j i : nat) : list nat := seq 0 j ++ [i].
Lemma nd_in j i p : In p (nd j i) <-> p < j \/ p = i.
Proof. unfold nd. rewrite in_app_iff, in_seq. cbn. lia. Qed.
Lemma nd_nodup j i : j <= i -> NoDup (nd j i).
Proof. intros H. apply NoDup_app_intro; [apply seq_NoDup|repeat constructor; auto|]. intros x Hx [<-|[]]. apply in_seq in Hx. lia. Qed.
Lemma nd_length j i : length (nd j i) = S j.
Proof. unfold nd. rewrite app_length, seq_length. cbn. lia. Qed.
Lemma nd_diag i : nd i i = seq 0 (S i).
Proof. unfold nd. rewrite seq_S. auto. Qed.
Lemma nd_inj j i j' i' : nd j i = nd j' i' -> j = j' /\ i = i'.
Proof.
  intros E. assert (H := f_equal (@length nat) E). rewrite !nd_length in H. injection H as ->. split; auto.
  unfold nd in E. apply app_inv_head in E. injection E as ->. auto.
Qed.
Lemma nd_small j i n : j <= i -> i < n -> n <= 31 -> forall v, In v (nd j i) -> v <= 30.
Proof. intros H1 H2 H3 v Hv. apply nd_in in Hv. lia. Qed.
Lemma snd_inj j i j' i' : j <= i -> i <= 30 -> j' <= i' -> i' <= 30 -> sstr (nd j i) = sstr (nd j' i') -> j = j' /\ i = i'.
Proof.
  intros H1 H2 H3 H4 E. apply nd_inj, sstr_inj; auto; intros v Hv; apply nd_in in Hv; lia.
Qed.
Lemma butlast_snoc l (x : nat) : butlast (l ++ [x]) = l.
Proof. unfold butlast. rewrite app_length. cbn. replace (length l + 1 - 1) with (length l) by lia. rewrite firstn_app, firstn_all, Nat.sub_diag. cbn. apply app_nil_r. Qed.
Lemma lset_last {A} (l : list A) x y : lset (l ++ [x]) (length l) y = l ++ [y].
Proof. induction l; cbn; auto. f_equal. auto. Qed.

(** ** the tree *)
Definition has (t : tree) (j i : nat) : Prop :=
  fst t (sstr (nd j i)) = Some (sstr (if j <? i then nd (S j) i else nd (S i) (S i))) /\
  snd t (sstr (nd j i)) = Some (sstr [if j <? i then j else S i]).
Definition same_at (t t' : tree) (k : str) : Prop := fst t' k = fst t k /\ snd t' k = snd t k.
Lemma right_ok i : i <= 30 -> forall j fuel t, j < i -> j < fuel ->
  exists t', Right_Subtree fuel t (nd (S j) i) = Ok t' /\ (forall j', j' <= j -> has t' j' i) /\
    (forall k, (forall j', j' <= j -> k <> sstr (nd j' i)) -> same_at t t' k).
Proof.
  intros Hi. induction j as [|j IH]; intros fuel t Hji Hf; (destruct fuel as [|fuel]; [lia|]).
  - cbn [Right_Subtree]. cbn [nd seq app length butlast Nat.sub firstn lget nth_error of_opt bind lput lset Nat.ltb Nat.leb].
    rewrite !vec2str_ok by (intros v Hv; cbn in Hv; lia). cbn [bind].
    eexists; split; [reflexivity|]. split.
    + intros j' Hj'. assert (j' = 0) by lia. subst j'. unfold has. cbn [fst snd]. destruct (Nat.ltb_spec 0 i); [|lia].
      cbn [nd seq app]. rewrite !sput_eq. auto.
    + intros k Hk. assert (k <> sstr [i]) by (apply (Hk 0); lia). unfold same_at. cbn [fst snd]. rewrite !sput_neq by auto. auto.
  - assert (Hlen : length (nd (S (S j)) i) = S (S (S j))) by apply nd_length.
    cbn [Right_Subtree]. rewrite Hlen.
    assert (Hb : butlast (nd (S (S j)) i) = seq 0 (S (S j))) by (unfold nd; apply butlast_snoc).
    rewrite Hb. rewrite (lget_ok _ _ 0) by (rewrite Hlen; lia). cbn [bind].
    replace (nth (S (S (S j)) - 1) (nd (S (S j)) i) 0) with i.
    2:{ unfold nd. rewrite app_nth2 by (rewrite seq_length; lia). rewrite seq_length. replace (S (S (S j)) - 1 - S (S j)) with 0 by lia. auto. }
    rewrite lput_ok by (rewrite seq_length; lia). cbn [bind]. rewrite seq_length.
    replace (lset (seq 0 (S (S j))) (S (S j) - 1) i) with (nd (S j) i).
    2:{ symmetry. replace (S (S j) - 1) with (length (seq 0 (S j))) by (rewrite seq_length; lia). rewrite (seq_S (S j)). apply lset_last. }
    rewrite (lget_ok _ _ 0) by (rewrite Hlen; lia). cbn [bind].
    replace (nth (S (S (S j)) - 2) (nd (S (S j)) i) 0) with (S j).
    2:{ unfold nd. rewrite app_nth1 by (rewrite seq_length; lia). rewrite seq_nth by lia. lia. }
    rewrite !vec2str_ok by (intros v Hv; try (apply nd_in in Hv); cbn in *; lia). cbn [bind].
    rewrite nd_length. destruct (Nat.ltb_spec 1 (S (S j))); [|lia].
    set (t1 := (_, _)). destruct (IH fuel t1) as (t' & E & H1 & H2); [lia|lia|].
    exists t'. split; [exact E|]. split.
    + intros j' Hj'. destruct (Nat.eq_dec j' (S j)) as [->|]; [|apply H1; lia].
      destruct (H2 (sstr (nd (S j) i))) as [K1 K2].
      { intros j'' Hj'' Es. apply snd_inj in Es; lia. }
      unfold has. rewrite K1, K2. unfold t1. cbn [fst snd]. rewrite !sput_eq. destruct (Nat.ltb_spec (S j) i); [auto|lia].
    + intros k Hk. destruct (H2 k) as [K1 K2]; [intros; apply Hk; lia|]. unfold same_at. rewrite K1, K2. unfold t1. cbn [fst snd].
      rewrite !sput_neq by (apply Hk; lia). auto.
Qed.
Lemma construct_ok : forall k fuel t, 1 <= k -> k <= 30 -> k <= fuel ->
  exists t', Construct_Subtree fuel t (seq 0 (S k)) = Ok t' /\
    (forall i j, i <= k -> j <= i -> (j < i \/ i < k) -> has t' j i) /\
    (forall key, (forall i j, i <= k -> j <= i -> (j < i \/ i < k) -> key <> sstr (nd j i)) -> same_at t t' key).
Proof.
  induction k as [|k IH]; intros fuel t Hk1 Hk Hf; [lia|]. destruct fuel as [|fuel]; [lia|].
  cbn [Construct_Subtree].
  assert (Hlen : length (seq 0 (S (S k))) = S (S k)) by apply seq_length. rewrite Hlen.
  destruct (right_ok (S k) Hk k (S (S k)) t) as (t1 & E1 & H1 & H2); [lia|lia|]. rewrite nd_diag in E1. rewrite E1. cbn [bind].
  rewrite (lget_ok _ _ 0) by (rewrite Hlen; lia). cbn [bind]. rewrite seq_nth by lia.
  assert (Hb : butlast (seq 0 (S (S k))) = seq 0 (S k)) by (rewrite (seq_S (S k)); apply butlast_snoc). rewrite Hb.
  rewrite !vec2str_ok by (intros v Hv; try (apply in_seq in Hv); cbn in *; lia). cbn [bind]. rewrite seq_length.
  replace (0 + (S (S k) - 1)) with (S k) by lia.
  set (t2 := (_, _)).
  assert (H3 : forall j' , j' <= k -> has t2 j' (S k)).
  { intros j' Hj'. destruct (H1 j' Hj') as [K1 K2]. unfold has, t2. cbn [fst snd]. rewrite <- nd_diag.
    rewrite !sput_neq; [auto| |]; intros Es; apply snd_inj in Es; lia. }
  assert (H4 : has t2 k k).
  { unfold has, t2. cbn [fst snd]. rewrite nd_diag. rewrite !sput_eq. rewrite Nat.ltb_irrefl, nd_diag. auto. }
  assert (H5 : forall key, (forall j', j' <= k -> key <> sstr (nd j' (S k))) -> key <> sstr (nd k k) -> same_at t t2 key).
  { intros key Ha Hb'. destruct (H2 key Ha) as [K1 K2]. unfold same_at, t2. cbn [fst snd]. rewrite nd_diag in Hb'. rewrite !sput_neq by auto. auto. }
  destruct (Nat.ltb_spec 1 (S k)) as [Hgt|Hle].
  - destruct (IH fuel t2) as (t' & E & K1 & K2); [lia|lia|lia|]. exists t'. split; [exact E|]. split.
    + intros i j Hi Hj Hij. destruct (Nat.eq_dec i (S k)) as [->|].
      * destruct (K2 (sstr (nd j (S k)))) as [A1 A2].
        { intros i' j' Hi' Hj' _ Es. apply snd_inj in Es; lia. }
        unfold has in *. rewrite A1, A2. apply H3. lia.
      * destruct (Nat.eq_dec i k) as [->|]; [|apply K1; lia].
        destruct (Nat.eq_dec j k) as [->|]; [|apply K1; lia].
        destruct (K2 (sstr (nd k k))) as [A1 A2].
        { intros i' j' Hi' Hj' Hx Es. apply snd_inj in Es; lia. }
        unfold has in *. rewrite A1, A2. apply H4.
    + intros key Hkey. destruct (K2 key) as [A1 A2]; [intros; apply Hkey; lia|].
      destruct (H5 key) as [B1 B2]; [intros; apply Hkey; lia|apply Hkey; lia|]. unfold same_at. rewrite A1, A2. auto.
  - exists t2. split; [reflexivity|]. assert (k = 0) by lia. subst k. split.
    + intros i j Hi Hj Hij. destruct (Nat.eq_dec i 1) as [->|]; [apply H3; lia|]. assert (i = 0) by lia. subst. assert (j = 0) by lia. subst. auto.
    + intros key Hkey. apply H5; intros; apply Hkey; lia.
Qed.
Definition good_tree (n : nat) (t : tree) : Prop :=
  forall i j, i < n -> j <= i -> (j < i \/ i < n - 1) -> has t j i.
Theorem opt_tree_ok o : 3 <= o <= 31 -> exists t, opt_tree o = Ok t /\ good_tree (o - 1) t.
Proof.
  intros Ho. unfold opt_tree. rewrite seq_length. replace (o - 1) with (S (o - 2)) by lia.
  destruct (construct_ok (o - 2) (S (o - 2)) (sempty, sempty)) as (t & E & H & _); [lia|lia|lia|]. exists t. split; auto.
  intros i j Hi Hj Hij. apply H; lia.
Qed.
Theorem opt_tree_order2 : opt_tree 2 = Err UB.
Proof. reflexivity. Qed.
