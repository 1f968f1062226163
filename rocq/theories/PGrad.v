(** swap_char, index arrays, Gram products, gradient_CP *)
From Coq Require Import List ZArith Lia Bool Arith Permutation Ring.
From Verif Require Import Base Num Tensor Spec MCommon PBase PTensor PSum PMttkrp PMat PKhatri.
Import ListNotations.

(** ** swap_char *)
Lemma lset_lset_same {A} (l : list A) i a b : lset (lset l i a) i b = lset l i b.
Proof. revert i; induction l; destruct i; simpl; f_equal; auto. Qed.
Lemma lset_nth_same {A} (l : list A) i d : lset l i (nth i l d) = l.
Proof. revert i; induction l; destruct i; simpl; f_equal; auto. Qed.
Lemma swap_char_ok (s : str) i j d : i < length s -> j < length s ->
  swap_char (map Some s) i j = Ok (map Some (lset (lset s j (nth i s d)) i (nth j s d))).
Proof.
  intros Hi Hj. unfold swap_char. rewrite !(bget_map _ _ d) by auto. cbn [bind].
  rewrite bset_ok by (rewrite map_length; auto). cbn [bind].
  rewrite bset_ok by (rewrite lset_length, map_length; auto). f_equal.
  assert (Hm : forall (l : str) k x, lset (map Some l) k (Some x) = map Some (lset l k x)).
  { induction l; destruct k; simpl; intros; f_equal; auto. }
  rewrite !Hm. auto.
Qed.
Definition swapl {A} (s : list A) (i j : nat) (d : A) := lset (lset s j (nth i s d)) i (nth j s d).
Lemma swapl_length {A} (s : list A) i j d : length (swapl s i j d) = length s.
Proof. unfold swapl. rewrite !lset_length. auto. Qed.
Lemma swapl_nth {A} (s : list A) i j d k : i < length s -> j < length s ->
  nth k (swapl s i j d) d = if Nat.eqb k i then nth j s d else if Nat.eqb k j then nth i s d else nth k s d.
Proof.
  intros. unfold swapl. rewrite lset_nth by (rewrite lset_length; auto).
  destruct (Nat.eqb k i); auto. rewrite lset_nth by auto. auto.
Qed.
Lemma swapl_invol {A} (s : list A) i j d : i < length s -> j < length s ->
  swapl (swapl s i j d) i j d = s.
Proof.
  intros Hi Hj. apply nth_ext with (d:=d) (d':=d); [rewrite !swapl_length; auto|].
  intros k Hk. rewrite !swapl_nth by (rewrite ?swapl_length; auto).
  destruct (Nat.eqb_spec k i), (Nat.eqb_spec j i), (Nat.eqb_spec j j), (Nat.eqb_spec k j), (Nat.eqb_spec i i); subst; auto; congruence.
Qed.
Lemma swapl_perm {A} (s : list A) i j d : i < length s -> j < length s -> Permutation (swapl s i j d) s.
Proof.
  intros Hi Hj. assert (E : swapl s i j d = map (fun k => nth k s d) (swapl (seq 0 (length s)) i j 0)).
  { apply nth_ext with (d:=d) (d':=d); [rewrite map_length, !swapl_length, seq_length; auto|].
    intros k Hk. rewrite swapl_length in Hk. rewrite swapl_nth by auto.
    rewrite (nth_map_lt _ _ _ 0) by (rewrite swapl_length, seq_length; auto).
    rewrite swapl_nth by (rewrite seq_length; auto). rewrite !nth_seq by auto.
    destruct (Nat.eqb k i), (Nat.eqb k j); auto. }
  rewrite E. transitivity (map (fun k => nth k s d) (seq 0 (length s))).
  - apply Permutation_map. apply NoDup_Permutation_bis.
    + apply (NoDup_nth _ 0). intros a b Ha Hb. rewrite swapl_length, seq_length in Ha, Hb.
      rewrite !swapl_nth by (rewrite seq_length; auto). rewrite !nth_seq by auto.
      destruct (Nat.eqb_spec a i), (Nat.eqb_spec b i), (Nat.eqb_spec a j), (Nat.eqb_spec b j); subst; lia.
    + rewrite swapl_length; auto.
    + intros x Hx. apply In_nth with (d:=0) in Hx as (k & Hk & <-). rewrite swapl_length, seq_length in Hk.
      rewrite swapl_nth by (rewrite seq_length; auto). rewrite !nth_seq by auto. apply in_seq.
      destruct (Nat.eqb k i), (Nat.eqb k j); lia.
  - assert (E2 : map (fun k => nth k s d) (seq 0 (length s)) = s); [|rewrite E2; auto]. apply nth_ext with (d:=d) (d':=d); [rewrite map_length, seq_length; auto|].
    intros k Hk. rewrite map_length, seq_length in Hk. rewrite (nth_map_lt _ _ _ 0) by (rewrite seq_length; auto).
    rewrite nth_seq by auto. auto.
Qed.
Lemma swap_char_invol (s : str) (i j : nat) : i < length s -> j < length s ->
  exists s', swap_char (map Some s) i j = Ok (map Some s') /\ length s' = length s /\ Permutation s' s /\
    nth i s' 0%Z = nth j s 0%Z /\ nth j s' 0%Z = nth i s 0%Z /\
    (forall k, k <> i -> k <> j -> nth k s' 0%Z = nth k s 0%Z) /\
    swap_char (map Some s') i j = Ok (map Some s).
Proof.
  intros Hi Hj. exists (swapl s i j 0%Z). rewrite (swap_char_ok _ _ _ 0%Z) by auto.
  split; [reflexivity|]. split; [apply swapl_length|]. split; [apply swapl_perm; auto|].
  rewrite !swapl_nth by auto. rewrite !Nat.eqb_refl. repeat split.
  - destruct (Nat.eqb_spec j i); subst; auto.
  - intros k Hki Hkj. rewrite swapl_nth by auto. apply Nat.eqb_neq in Hki, Hkj. rewrite Hki, Hkj. auto.
  - rewrite (swap_char_ok _ _ _ 0%Z) by (rewrite swapl_length; auto).
    fold (swapl (swapl s i j 0%Z) i j 0%Z). rewrite swapl_invol; auto.
Qed.
(** the mode order after swapping mode i with the last *)
Definition swapped (o i : nat) : list nat := swapl (seq 0 o) i (o - 1) 0.
Lemma swapped_nth o i k : i < o -> k < o ->
  nth k (swapped o i) 0 = if Nat.eqb k i then o - 1 else if Nat.eqb k (o - 1) then i else k.
Proof.
  intros. unfold swapped. rewrite swapl_nth by (rewrite seq_length; lia).
  rewrite !nth_seq by lia. auto.
Qed.
Lemma swapped_perm o i : i < o -> Permutation (swapped o i) (seq 0 o).
Proof.
  intros Hi. assert (HL : length (swapped o i) = o) by (unfold swapped; rewrite swapl_length, seq_length; auto).
  apply NoDup_Permutation_bis.
  - apply NoDup_nth with (d:=0). rewrite HL. intros a b Ha Hb E.
    rewrite !swapped_nth in E by auto. revert E. natcases; intros; lia.
  - rewrite seq_length. lia.
  - intros m Hm. apply In_nth with (d:=0) in Hm as (k & Hk & <-). rewrite HL in Hk.
    rewrite swapped_nth by auto. apply in_seq. natcases; lia.
Qed.
Lemma swapped_last o i : i < o -> nth (o - 1) (swapped o i) 0 = i.
Proof. intros. rewrite swapped_nth by lia. natcases; lia. Qed.
Lemma swapl_map {A B} (f : A -> B) s i j d : i < length s -> j < length s ->
  swapl (map f s) i j (f d) = map f (swapl s i j d).
Proof.
  intros. apply nth_ext with (d:=f d) (d':=f d).
  - rewrite swapl_length, !map_length, swapl_length. auto.
  - intros k Hk. rewrite swapl_nth by (rewrite map_length; auto).
    rewrite !map_nth, swapl_nth by auto. destruct (Nat.eqb k i), (Nat.eqb k j); auto.
Qed.

(** the buffer seq_V holding the letters of all modes followed by '\0' *)
Definition lbuf (o : nat) : buf Z := map Some (map chr (seq 0 o) ++ [0%Z]).
Lemma swap_lbuf o i : i < o -> swap_char (lbuf o) i (o - 1) = Ok (map Some (map chr (swapped o i) ++ [0%Z])).
Proof.
  intros Hi. unfold lbuf. rewrite (swap_char_ok _ _ _ 0%Z) by (rewrite app_length, map_length, seq_length; simpl; lia).
  do 2 f_equal.
  change (swapl (map chr (seq 0 o) ++ [0%Z]) i (o - 1) 0%Z = map chr (swapped o i) ++ [0%Z]).
  assert (HL : length (map chr (seq 0 o)) = o) by (rewrite map_length, seq_length; auto).
  assert (HL2 : length (map chr (swapped o i)) = o) by (rewrite map_length; unfold swapped; rewrite swapl_length, seq_length; auto).
  apply nth_ext with (d:=0%Z) (d':=0%Z).
  - rewrite swapl_length, !app_length, HL, HL2. auto.
  - intros k Hk. rewrite swapl_length, app_length, HL in Hk. simpl in Hk.
    rewrite swapl_nth by (rewrite app_length, HL; simpl; lia).
    rewrite !nth_snoc, HL, HL2. natcases; auto;
    rewrite !(nth_map_lt _ _ _ 0) by (rewrite ?seq_length; try (unfold swapped; rewrite swapl_length, seq_length); lia);
    rewrite ?nth_seq, ?swapped_nth by lia; natcases; auto; f_equal; lia.
Qed.
Lemma map_Some_inj {A} (l l' : list A) : map Some l = map Some l' -> l = l'.
Proof. revert l'; induction l; destruct l'; simpl; intros E; try discriminate; auto. injection E as -> E. f_equal; auto. Qed.
Lemma swap_back o i : i < o ->
  swap_char (map Some (map chr (swapped o i) ++ [0%Z])) i (o - 1) = Ok (lbuf o).
Proof.
  intros Hi. pose proof (swap_lbuf o i Hi) as H. unfold lbuf in H.
  assert (HL : length (map chr (seq 0 o) ++ [0%Z]) = o + 1) by (rewrite app_length, map_length, seq_length; auto).
  rewrite (swap_char_ok _ _ _ 0%Z) in H by lia. injection H as H.
  fold (swapl (map chr (seq 0 o) ++ [0%Z]) i (o - 1) 0%Z) in H.
  assert (H' : swapl (map chr (seq 0 o) ++ [0%Z]) i (o - 1) 0%Z = map chr (swapped o i) ++ [0%Z]).
  { apply map_Some_inj. exact H. }
  rewrite <- H'. rewrite (swap_char_ok _ _ _ 0%Z) by (rewrite swapl_length; lia).
  fold (swapl (swapl (map chr (seq 0 o) ++ [0%Z]) i (o - 1) 0%Z) i (o - 1) 0%Z).
  rewrite swapl_invol by lia. auto.
Qed.
Lemma fill_letters_lbuf o b : bset (newbuf (o + 1)) o 0%Z = Ok b -> for_ 0 o (fun j b => bset b j (chr j)) b = Ok (lbuf o).
Proof.
  intros Hb. rewrite bset_ok in Hb by blen. injection Hb as <-.
  destruct (fill_for 0 o (fun j b => bset b j (chr j)) 0 chr (lset (newbuf (o + 1)) o (Some 0%Z)) (o + 1)) as (b' & E & L & P).
  - blen.
  - lia.
  - intros. f_equal. lia.
  - rewrite E. f_equal. unfold lbuf.
    assert (HL : length (map chr (seq 0 o) ++ [0%Z]) = o + 1) by (rewrite app_length, map_length, seq_length; auto).
    apply nth_ext with (d:=None) (d':=None); [rewrite map_length; lia|].
    intros k Hk. apply nth_error_nth with (d:=None). rewrite P, lset_nth_error.
    rewrite (nth_map_lt _ _ _ 0%Z) by lia. rewrite nth_snoc, map_length, seq_length, newbuf_length.
    natcases; simpl; auto. rewrite (nth_map_lt _ _ _ 0) by (rewrite seq_length; auto). rewrite nth_seq by auto. do 3 f_equal. lia.
Qed.

(** ** the index arrays *)
Lemma make_index_ok o i rows nc (R : nat -> nat) :
  1 <= o <= 31 -> i < o -> (forall m, m < o -> rows m = Ok (R m)) ->
  make_index o (map Some (map chr (swapped o i) ++ [0%Z])) rows nc
  = Ok (map Some (swapped o i), map Some (map R (firstn (o - 1) (swapped o i)) ++ [nc])).
Proof.
  intros Ho Hi HR. unfold make_index.
  set (w := swapped o i).
  assert (HL : length w = o) by (unfold w, swapped; rewrite swapl_length, seq_length; auto).
  assert (Hw : forall k, k < o -> nth k w 0 < o).
  { intros k Hk. unfold w. rewrite swapped_nth by auto. natcases; lia. }
  assert (Hget : forall k, k < o -> bget (map Some (map chr w ++ [0%Z])) k = Ok (chr (nth k w 0))).
  { intros k Hk. rewrite (bget_map _ _ 0%Z) by (rewrite app_length, map_length; simpl; lia).
    rewrite app_nth1 by (rewrite map_length; lia). rewrite (nth_map_lt _ _ _ 0) by lia. auto. }
  clearbody w.
  destruct (for_inv (fun j (st : buf nat * buf nat) =>
     length (fst st) = o /\ length (snd st) = o /\
     (forall k, k < o -> nth_error (fst st) k = if k <? j then Some (Some (nth k w 0)) else Some None) /\
     (forall k, k < o -> nth_error (snd st) k = if k <? j then Some (Some (R (nth k w 0))) else Some None))
   (fun j st =>
      let '(index, lens_H) := st in
      c <- bget (map Some (map chr w ++ [0%Z])) j ;;
      ij <- ix c ;;
      index <- bset index j ij ;;
      l <- rows ij ;;
      lens_H <- bset lens_H j l ;;
      Ok (index, lens_H)) 0 (o - 1) (newbuf o, newbuf o)) as ([bi bl] & E & L1 & L2 & P1 & P2).
  - lia.
  - simpl. rewrite !newbuf_length. repeat split; auto; intros k Hk; unfold newbuf; rewrite nth_error_repeat; auto.
  - intros j [bi bl] Hj (L1 & L2 & P1 & P2). simpl in L1, L2, P1, P2.
    rewrite Hget by lia. cbn [bind]. rewrite ix_chr by (specialize (Hw j); lia). cbn [bind].
    rewrite bset_ok by lia. cbn [bind]. rewrite HR by (apply Hw; lia). cbn [bind].
    rewrite bset_ok by lia. cbn [bind]. eexists; split; [reflexivity|]. simpl. rewrite !lset_length.
    repeat split; auto; intros k Hk; rewrite lset_nth_error, ?L1, ?L2.
    + destruct (Nat.eqb_spec k j); [subst; natcases; auto|]. rewrite P1 by auto. natcases; auto.
    + destruct (Nat.eqb_spec k j); [subst; natcases; auto|]. rewrite P2 by auto. natcases; auto.
  - simpl in *. rewrite E. cbn [bind]. rewrite Hget by lia. cbn [bind].
    rewrite ix_chr by (specialize (Hw (o - 1)); lia). cbn [bind].
    rewrite bset_ok by lia. cbn [bind]. rewrite bset_ok by lia. cbn [bind]. do 2 f_equal.
    + apply nth_ext with (d:=None) (d':=None); [rewrite lset_length, map_length; lia|].
      rewrite lset_length, L1. intros k Hk. apply nth_error_nth with (d:=None).
      rewrite lset_nth_error, L1. rewrite (nth_map_lt _ _ _ 0) by lia.
      destruct (Nat.eqb_spec k (o - 1)); [subst; natcases; auto|]. rewrite P1 by auto. natcases; auto.
    + assert (HLf : length (map R (firstn (o - 1) w)) = o - 1) by (rewrite map_length, firstn_length; lia).
      apply nth_ext with (d:=None) (d':=None); [rewrite lset_length, map_length, app_length; simpl; lia|].
      rewrite lset_length, L2. intros k Hk. apply nth_error_nth with (d:=None).
      rewrite lset_nth_error, L2.
      rewrite (nth_map_lt _ _ _ 0) by (rewrite app_length; simpl; lia). rewrite nth_snoc, HLf.
      destruct (Nat.eqb_spec k (o - 1)); [subst; natcases; auto|]. rewrite P2 by auto. natcases.
      rewrite (nth_map_lt _ _ _ 0) by (rewrite firstn_length; lia). rewrite nth_firstn by lia. auto.
Qed.

Section P.
Context {N : num} (RL : ring_laws N).
Let RT : ring_theory (@n0 N) n1 nadd nmul nsub nopp (@eq N) := RL.
Add Ring Nring : RT.
Local Open Scope num_scope.

(** all factors have R columns *)
Definition cols_ok (W : list (tensor N)) (R : nat) : Prop :=
  forall m, m < length W -> exists r, is_mat (fac W m) r R.

Lemma gram_index_ok (Sm : tensor N) W o R idx n :
  2 <= o -> length W = o -> cols_ok W R -> lens Sm = [R; R] ->
  Permutation idx (seq 0 o) -> nth (o - 1) idx 0%nat = n ->
  gram_index Sm W o (map Some idx) = Ok (hgram W n R).
Proof.
  intros Ho HW Hc HS Hp Hn. unfold gram_index.
  assert (HL : length idx = o) by (rewrite (Permutation_length Hp); apply seq_length).
  assert (Hlt : forall k, k < o -> nth k idx 0%nat < o).
  { intros k Hk. assert (H : In (nth k idx 0%nat) idx) by (apply nth_In; lia).
    apply (Permutation_in _ Hp), in_seq in H. lia. }
  assert (Hget : forall k, k < o -> bget (map Some idx) k = Ok (nth k idx 0%nat)) by (intros; apply bget_map; lia).
  assert (HW' : forall k, k < o -> lget W k = Ok (fac W k)) by (intros; apply lget_ok; lia).
  rewrite Hget by lia. cbn [bind]. rewrite HW' by (apply Hlt; lia). cbn [bind].
  destruct (Hc (nth 0 idx 0%nat)) as (r0 & Hr0 & _). { rewrite HW; apply Hlt; lia. }
  rewrite (assign_gram RL Sm _ R r0) by auto. cbn [bind].
  destruct (for_inv (fun j (Sj : tensor N) =>
     Sj = mk R R (fun k l => bigprod (firstn j idx) (fun m => gram_at (fac W m) k l)))
    (fun ii Sm => i <- bget (map Some idx) ii ;; Wi <- lget W i ;;
        assign false Sm sij [prodt [(Sm, sij); (Wi, ski); (Wi, skj)]]) 1%nat (o - 1)%nat
     (mk R R (gram_at (fac W (nth 0 idx 0%nat))))) as (S' & E & P).
  - lia.
  - apply mk_ext. intros i j _ _. destruct idx; [simpl in HL; lia|]. simpl. ring.
  - intros j Sj Hj ->. rewrite Hget by lia. cbn [bind]. rewrite HW' by (apply Hlt; lia). cbn [bind].
    destruct (Hc (nth j idx 0%nat)) as (r & Hr & _). { rewrite HW; apply Hlt; lia. }
    rewrite (assign_hgram RL _ _ R r) by auto. eexists; split; [reflexivity|].
    apply mk_ext. intros a b Ha Hb. rewrite el_mk by auto.
    rewrite (firstn_snoc_nth idx j 0%nat) by lia. rewrite (bigprod_app RL). simpl. ring.
  - rewrite E. f_equal. rewrite P. unfold hgram. change (mk R R (fun k l => bigprod (firstn (o - 1) idx) (fun m => gram_at (fac W m) k l)) = mk R R (hgram_at W n)).
    apply mk_ext. intros k l _ _. unfold hgram_at. apply (bigprod_perm RL).
    assert (Hsplit : idx = firstn (o - 1) idx ++ [n]).
    { rewrite <- (firstn_skipn (o - 1) idx) at 1. f_equal.
      rewrite (skipn_cons_nth idx (o - 1) 0%nat) by lia. rewrite Hn. f_equal. apply skipn_all2. lia. }
    assert (Hno : n < o) by (rewrite <- Hn; apply Hlt; lia).
    rewrite HW. apply Permutation_cons_inv with (a:=n).
    rewrite others_perm by auto. rewrite <- Hp. rewrite Hsplit at 2. apply Permutation_cons_append.
Qed.

Lemma factors_cols V W R : @factors_ok N V W R -> cols_ok W R.
Proof. intros (_ & H1 & H2) m Hm. eexists. apply H2. lia. Qed.

Lemma setf_length (W : list (tensor N)) n A : length (setf W n A) = length W.
Proof. apply lset_length. Qed.
Lemma fac_setf (W : list (tensor N)) n A m : n < length W -> fac (setf W n A) m = if Nat.eqb m n then A else fac W m.
Proof. intros. unfold fac, setf. apply lset_nth; auto. Qed.
Lemma setf_factors V (W : list (tensor N)) R n A : factors_ok V W R -> n < order V ->
  is_mat A (nth n (lens V) 0%nat) R -> factors_ok V (setf W n A) R.
Proof.
  intros (H1 & H2 & H3) Hn HA. split; [auto|split; [rewrite setf_length; auto|]].
  intros m Hm. rewrite fac_setf by lia. destruct (Nat.eqb_spec m n); subst; auto.
Qed.

Lemma gradsubprob_ok (V : tensor N) W R n (G : tensor N) s : factors_ok V W R -> n < order V ->
  nth n (lens V) 0%nat = s -> lens G = [s; R] ->
  gradsubprob (mttkrp V W n R) (hgram W n R) (fac W n) G = Ok (grad_spec V W R n).
Proof.
  intros (H1 & H2 & H3) Hn Hs HG. unfold gradsubprob.
  destruct (H3 n Hn) as [HWn HwW]. rewrite Hs in HWn.
  rewrite (assign_grad RL _ _ _ _ s R R); auto.
  - f_equal. symmetry. unfold grad_spec, msub, mmul.
    assert (nrow (fac W n) = s) as -> by (unfold nrow; rewrite HWn; auto).
    assert (ncol (fac W n) = R) as -> by (unfold ncol; rewrite HWn; auto).
    assert (ncol (hgram W n R) = R) as -> by reflexivity.
    apply mat_mk; [split; [reflexivity|apply tabulate_wf]|].
    intros i j Hi Hj. unfold el at 1. cbn [lens tabulate]. rewrite !at_tabulate by (apply inb2; auto). reflexivity.
  - unfold mttkrp. rewrite Hs. auto.
Qed.

Theorem gradient_CP_ok (V : tensor N) (W G : list (tensor N)) R s :
  2 <= order V <= 10 -> lens V = repeat s (order V) -> factors_ok V W R ->
  length G = order V -> (forall m, m < order V -> lens (fac G m) = [s; R]) ->
  gradient_CP V W G = Ok (map (grad_spec V W R) (seq 0 (order V))).
Proof.
  intros Ho Hcube HW HG HGm. unfold gradient_CP. set (o := order V) in *.
  rewrite bset_ok by blen. cbn [bind].
  rewrite (fill_letters_lbuf o) by (apply bset_ok; blen). cbn [bind].
  pose proof HW as (HwV & HLW & HWm). fold o in HLW, HWm.
  assert (HW' : forall k, k < o -> lget W k = Ok (fac W k)) by (intros; apply lget_ok; lia).
  rewrite HW' by lia. cbn [bind].
  destruct (HWm 0%nat) as [HW0 _]; [lia|].
  assert (ncol (fac W 0) = R) as -> by (unfold ncol; rewrite HW0; auto).
  assert (HVs : forall m, m < o -> nth m (lens V) 0%nat = s) by (intros; rewrite Hcube; apply nth_rep; auto).
  lazymatch goal with |- bind (for_ 0 o ?body ?st0) _ = _ =>
    destruct (for_inv (fun i (st : list (tensor N) * buf Z * tensor N) =>
       let '(G', sv, Sm) := st in
       length G' = o /\ sv = lbuf o /\ lens Sm = [R; R] /\
       forall m, m < o -> fac G' m = if m <? i then grad_spec V W R m else fac G m)
      body 0%nat o st0) as ([[G' sv] Sm] & E & (L & _ & _ & P))
  end.
  - lia.
  - repeat split; auto.
  - intros i [[G' sv] Sm] Hi (L & -> & HS & P).
    rewrite swap_lbuf by lia. cbn [bind]. rewrite HW' by lia. cbn [bind].
    destruct (HWm i) as [HWi HwWi]; [lia|]. rewrite HVs in HWi by lia.
    assert (nrow (fac W i) = s) as -> by (unfold nrow; rewrite HWi; auto).
    assert (ncol (fac W i) = R) as -> by (unfold ncol; rewrite HWi; auto).
    rewrite (make_index_ok o i _ _ (fun _ => s)); [|lia|lia|].
    2:{ intros m Hm. rewrite (lget_ok _ _ 0%nat) by (rewrite Hcube, repeat_length; auto). rewrite HVs; auto. }
    cbn [bind].
    assert (HLs : length (swapped o i) = o) by (unfold swapped; rewrite swapl_length, seq_length; auto).
    replace (map (fun _ : nat => s) (firstn (o - 1) (swapped o i))) with (repeat s (o - 1)).
    2:{ apply nth_ext with (d:=0%nat) (d':=0%nat); [rewrite repeat_length, map_length, firstn_length; lia|].
        rewrite repeat_length. intros k Hk. rewrite nth_rep by auto.
        rewrite (nth_map_lt _ _ _ 0%nat) by (rewrite firstn_length; lia). auto. }
    rewrite (KhatriRao_contract_ok RL V W R s (swapped o i)) with (n:=i); auto.
    2:{ apply swapped_perm; lia. }
    2:{ apply swapped_last; lia. }
    cbn [bind].
    rewrite (gram_index_ok _ W o R (swapped o i) i); auto; try lia.
    2:{ eapply factors_cols; eauto. }
    2:{ apply swapped_perm; lia. }
    2:{ apply swapped_last; lia. }
    cbn [bind]. rewrite (lget_ok G' i tnil) by lia. cbn [bind].
    rewrite (gradsubprob_ok V W R i _ s); auto; [|lia|apply HVs; lia|].
    2:{ change (nth i G' tnil) with (fac G' i). rewrite P by lia. natcases. apply HGm. lia. }
    cbn [bind]. rewrite lput_ok by lia. cbn [bind]. rewrite swap_back by lia. cbn [bind].
    eexists; split; [reflexivity|]. repeat split; auto.
    + rewrite lset_length; auto.
    + intros m Hm. unfold fac. rewrite lset_nth by lia. destruct (Nat.eqb_spec m i).
      * subst. natcases. auto.
      * fold (fac G' m) (fac G m). rewrite P by auto. natcases; auto.
  - rewrite E. cbn [bind]. f_equal.
    apply nth_ext with (d:=tnil) (d':=tnil); [rewrite map_length, seq_length; auto|].
    rewrite L. intros k Hk. change (nth k G' tnil) with (fac G' k). rewrite P by auto. natcases.
    rewrite (nth_map_lt _ _ _ 0%nat) by (rewrite seq_length; auto). rewrite nth_seq; auto.
Qed.
End P.
