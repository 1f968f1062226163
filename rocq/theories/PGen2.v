(** Proofs about build_V_vec and Gen_collinearity *)
From Coq Require Import List ZArith QArith Lia Bool Arith Permutation Ring.
From Verif Require Import Base Num Tensor Spec Spec5 MCommon MGen PBase PTensor PSum PMttkrp PMat PKhatri PBuildV PGen.
Import ListNotations.
Local Close Scope Q_scope.

Definition is_vec {N : num} (v : tensor N) (n : nat) : Prop := lens v = [n] /\ wf v.

Section P.
Context {N : num} (RL : ring_laws N).
Let RT : ring_theory (@n0 N) n1 nadd nmul nsub nopp (@eq N) := RL.
Add Ring Nring : RT.
Local Open Scope num_scope.

Lemma cls_nodup i : i <= 19 -> NoDup (cls i).
Proof. intros H. apply NoDup_map_inj; [|apply seq_NoDup]. intros x y Hx Hy. apply in_seq in Hx, Hy. apply cl_inj; lia. Qed.
Lemma chars_fill i b : i <= 19 -> i <= length b -> exists b', for_ 0 i (fun j b => c <- bget chars18 j ;; bset b j c) b = Ok b' /\ length b' = length b /\ forall n, n <= i -> take n b' = Ok (cls n).
Proof.
  intros Hi Hb. destruct (fill_take 0 i cl b (fun j b => c <- bget chars18 j ;; bset b j c)) as (b' & E & L & T).
  - intros j b' Hj _. rewrite bget_chars by lia. cbn [bind]. rewrite Nat.sub_0_r. auto.
  - lia.
  - exists b'. repeat split; auto. intros n Hn. rewrite T by lia. auto.
Qed.
Section B.
Context (W : list (tensor N)) (o : nat).
Hypothesis Ho : 2 <= o <= 19.
Hypothesis HLW : length W = o.
Hypothesis HW : forall m, m < o -> exists n, is_vec (fac W m) n.
Definition dv (c : Z) : nat := if Z.eqb c 0 then nrow (fac W 18) else nrow (fac W (Z.to_nat (c - 105))).
Lemma dv_cl m : m < 19 -> dv (cl m) = nrow (fac W m).
Proof.
  intros Hm. unfold dv. rewrite cl_val by lia. destruct (Nat.ltb_spec m 18).
  - destruct (Z.eqb_spec (105 + Z.of_nat m) 0); [lia|]. do 2 f_equal. lia.
  - assert (m = 18) by lia. subst. reflexivity.
Qed.
Lemma vec_rep m : m < o -> rep dv (fac W m) [cl m] (fun e => at_ (fac W m) [e (cl m)]).
Proof.
  intros Hm. destruct (HW m Hm) as (n & HL & Hw). split; [auto|]. split; [|auto].
  cbn [map]. rewrite dv_cl by lia. unfold nrow. rewrite HL. auto.
Qed.
Definition PV (i : nat) (e : env) : N := bigprod (seq 0 i) (fun m => at_ (fac W m) [e (cl m)]).
Lemma PV_env i : envext (PV i).
Proof. intros e e' H. apply bigprod_ext. intros. rewrite H. auto. Qed.
Lemma PV_S i e : PV (S i) e = PV i e * at_ (fac W i) [e (cl i)].
Proof. unfold PV. rewrite seq_S, (bigprod_app RL). cbn [Nat.add bigprod fold_right]. ring. Qed.
Lemma lens_fill i b : i <= o -> length b = i -> exists b', for_ 0 i (fun j b => Wj <- lget W j ;; bset b j (nrow Wj)) b = Ok b' /\ new_tensor i b' = Ok (zeros (map dv (cls i)) : tensor N).
Proof.
  intros Hi Hb. destruct (fill_take 0 i (fun j => nrow (fac W j)) b (fun j b => Wj <- lget W j ;; bset b j (nrow Wj))) as (b' & E & L & T).
  - intros j b' Hj _. rewrite (lget_ok _ _ tnil) by lia. cbn [bind]. rewrite Nat.sub_0_r. auto.
  - lia.
  - exists b'. split; auto. unfold new_tensor. rewrite T by lia. cbn [bind]. do 2 f_equal. unfold cls. rewrite map_map.
    apply map_ext_in. intros j Hj. apply in_seq in Hj. rewrite dv_cl by lia. auto.
Qed.
Lemma cls_S i : cls (S i) = cls i ++ [cl i].
Proof. unfold cls. rewrite seq_S, map_app. auto. Qed.
Lemma cls_in i c : In c (cls i) <-> exists m, m < i /\ c = cl m.
Proof. unfold cls. rewrite in_map_iff. split; intros (m & H1 & H2); exists m; [apply in_seq in H2|]; split; auto; [lia|apply in_seq; lia]. Qed.
Lemma mult_step (V : tensor N) i : 1 <= i < o -> rep dv V (cls i) (PV i) ->
  exists B, assign false (zeros (map dv (cls (S i)))) (cls (S i)) [prodt [(V, cls i); (fac W i, [cl i])]] = Ok B /\ rep dv B (cls (S i)) (PV (S i)).
Proof.
  intros Hi HV.
  destruct (outer_rep RL dv false (zeros (map dv (cls (S i)))) (cls (S i)) [((V, cls i), PV i); ((fac W i, [cl i]), fun e => at_ (fac W i) [e (cl i)])]) as (B & E & RB).
  - apply cls_nodup. lia.
  - reflexivity.
  - constructor; [auto|]. constructor; [apply vec_rep; lia|constructor].
  - intros c Hc. cbn [map fst flat_map snd] in Hc. rewrite cls_S. apply in_app_or in Hc. apply in_or_app. destruct Hc as [|[<-|[]]]; cbn; auto.
  - intros q [<-|[<-|[]]]; [apply PV_env|]. intros e e' H. cbn [snd]. rewrite H. auto.
  - exists B. split; [exact E|]. eapply rep_ext; [exact RB|]. intros e He. cbn [bigprod fold_right snd]. rewrite PV_S. ring.
Qed.
Lemma vec_step_ok i V b : 1 <= i < o - 1 -> length b = 2 -> rep dv V (cls i) (PV i) ->
  exists B b', vec_step W i (V, b) = Ok (B, b') /\ length b' = 2 /\ rep dv B (cls (S i)) (PV (S i)).
Proof.
  intros Hi Hb HV. unfold vec_step.
  destruct (lens_fill (i + 1) (newbuf (i + 1))) as (b1 & E1 & T1); [lia|apply newbuf_length|]. rewrite E1. cbn [bind]. rewrite T1. cbn [bind].
  rewrite (bset_ok (newbuf (i + 2))) by (rewrite newbuf_length; lia). cbn [bind].
  destruct (chars_fill (i + 1) (lset (newbuf (i + 2)) (i + 1) (Some 0%Z))) as (b2 & E2 & L2 & T2); [lia|rewrite lset_length, newbuf_length; lia|].
  rewrite E2. cbn [bind]. rewrite (bset_ok (newbuf (i + 1))) by (rewrite newbuf_length; lia). cbn [bind].
  destruct (chars_fill i (lset (newbuf (i + 1)) i (Some 0%Z))) as (b3 & E3 & L3 & T3); [lia|rewrite lset_length, newbuf_length; lia|].
  rewrite E3. cbn [bind]. rewrite bget_chars by lia. cbn [bind]. rewrite bset_ok by lia. cbn [bind]. rewrite (lget_ok _ _ tnil) by lia. cbn [bind].
  unfold assign_b, tixs, tix. change (nth i W tnil) with (fac W i).
  replace (order (zeros (map dv (cls (i + 1))) : tensor N)) with (i + 1)%nat by (unfold order; cbn [lens zeros tabulate]; rewrite map_length, cls_len; auto).
  rewrite T2 by lia. cbn [bind]. rewrite (rep_order _ _ _ _ HV), cls_len, T3 by lia. cbn [bind].
  destruct (HW i ltac:(lia)) as (n & HLn & _).
  replace (order (fac W i)) with 1%nat by (unfold order; rewrite HLn; auto).
  destruct b as [|a0 [|a1 [|]]]; try (cbn in Hb; lia). cbn [lset take bind].
  replace (i + 1)%nat with (S i) by lia.
  destruct (mult_step V i ltac:(lia) HV) as (B & EB & RB). rewrite EB. cbn [bind]. exists B, [Some (cl i); a1]. auto.
Qed.
Lemma outer_rep_eq B : rep dv B (cls o) (PV o) -> B = outer W.
Proof.
  intros (R1 & R2 & R3). assert (HL : map dv (cls o) = map (fun v => nth 0 (lens v) 0%nat) W).
  { unfold cls. rewrite map_map. rewrite (map_ext_in _ (fun m => nrow (fac W m))) by (intros m Hm; apply in_seq in Hm; apply dv_cl; lia).
    unfold fac, nrow. apply (nth_ext _ _ 0%nat 0%nat); [rewrite !map_length, seq_length; auto|]. intros n Hn. rewrite map_length, seq_length in Hn.
    rewrite (nth_map_lt _ _ _ 0%nat) by (rewrite seq_length; auto). rewrite nth_seq by lia. rewrite (nth_map_lt _ _ _ tnil) by lia. auto. }
  apply tensor_ext; auto; [apply tabulate_wf|cbn [lens outer tabulate]; congruence|].
  intros x Hx. rewrite R2 in Hx. destruct (inb_env dv (cls o) x) as (e & Ee & Hr); [apply cls_nodup; lia|auto|].
  rewrite <- Ee, R3 by auto. unfold outer. rewrite at_tabulate by (rewrite <- HL, Ee; auto).
  unfold PV, outer_at. rewrite HLW. apply bigprod_ext. intros m Hm. apply in_seq in Hm. unfold fac. f_equal. f_equal.
  unfold cls. rewrite map_map, (nth_map_lt _ _ _ 0%nat) by (rewrite seq_length; lia). rewrite nth_seq by lia. auto.
Qed.
Lemma build_V_vec_ok : build_V_vec W o = Ok (outer W).
Proof.
  unfold build_V_vec. rewrite (lget_ok _ _ tnil) by lia. cbn [bind].
  destruct (for_inv (fun i (st : tensor N * buf Z) => length (snd st) = 2%nat /\ rep dv (fst st) (cls i) (PV i)) (vec_step W) 1 (o - 1) (nth 0 W tnil, lit [ch_i])) as ((V & b) & E & Hb & HV).
  - lia.
  - split; [reflexivity|]. cbn [fst]. eapply rep_ext; [apply vec_rep; lia|]. intros e _. unfold PV. cbn. ring.
  - intros i (V & b) Hi (Hb & HV). destruct (vec_step_ok i V b ltac:(lia) Hb HV) as (B & b' & E & L & RB). exists (B, b'). auto.
  - rewrite E. cbn [bind fst snd] in *.
    destruct (lens_fill o (newbuf o)) as (b1 & E1 & T1); [lia|apply newbuf_length|]. rewrite E1. cbn [bind]. rewrite T1. cbn [bind].
    rewrite (bset_ok (newbuf (o + 1))) by (rewrite newbuf_length; lia). cbn [bind].
    destruct (for_inv (fun i (st : buf Z * buf Z) => length (fst st) = (o + 1)%nat /\ length (snd st) = (o + 1)%nat /\
        (forall j, j < i -> nth_error (fst st) j = Some (Some (cl j))) /\ (forall j, j < i -> nth_error (snd st) j = Some (Some (cl j))))
      (fun j (st : buf Z * buf Z) => let '(a, b) := st in c <- bget chars18 j ;; a <- bset a j c ;; b <- bset b j c ;; Ok (a, b))
      0 o (lset (newbuf (o + 1)) o (Some 0%Z), newbuf (o + 1))) as ((b2 & b3) & E2 & L2 & L3 & P2 & P3).
    + lia.
    + cbn [fst snd]. rewrite lset_length, newbuf_length. repeat split; auto; intros; lia.
    + intros j (a & c) Hj (La & Lc & Pa & Pc). cbn [fst snd] in *. rewrite bget_chars by lia. cbn [bind]. rewrite !bset_ok by lia. cbn [bind].
      eexists. split; [reflexivity|]. cbn [fst snd]. rewrite !lset_length. repeat split; auto; intros k Hk; rewrite lset_nth_error; destruct (Nat.eqb_spec k j); subst.
      * destruct (Nat.ltb_spec j (length a)); [auto|lia].
      * apply Pa. lia.
      * destruct (Nat.ltb_spec j (length c)); [auto|lia].
      * apply Pc. lia.
    + rewrite E2. cbn [bind fst snd] in *. rewrite bget_chars by lia. cbn [bind]. rewrite bset_ok by lia. cbn [bind]. rewrite (lget_ok _ _ tnil) by lia. cbn [bind].
      assert (T2 : take o b2 = Ok (cls o)) by (apply take_spec; auto).
      assert (T3 : take (o - 1) b3 = Ok (cls (o - 1))) by (apply take_spec; intros; apply P3; lia).
      unfold assign_b, tixs, tix. change (nth (o - 1) W tnil) with (fac W (o - 1)).
      replace (order (zeros (map dv (cls o)) : tensor N)) with o by (unfold order; cbn [lens zeros tabulate]; rewrite map_length, cls_len; auto).
      rewrite T2. cbn [bind]. rewrite (rep_order _ _ _ _ HV), cls_len, T3. cbn [bind].
      destruct (HW (o - 1) ltac:(lia)) as (n & HLn & _).
      replace (order (fac W (o - 1))) with 1%nat by (unfold order; rewrite HLn; auto).
      destruct b as [|a0 [|a1 [|]]]; try (cbn in Hb; lia). cbn [lset take bind].
      destruct (mult_step V (o - 1) ltac:(lia) HV) as (B & EB & RB). replace (S (o - 1)) with o in * by lia.
      rewrite EB. f_equal. apply outer_rep_eq. auto.
Qed.
End B.

(** ** collinearity *)
Lemma dot1_ok (A B : tensor N) n : lens A = [n] -> lens B = [n] -> dot1 A B = Ok (dotp A B).
Proof.
  intros HA HB. unfold dot1.
  replace (assign false (zeros []) [] [prodt [(A, [ch_i]); (B, [ch_i])]]) with (Ok (mkT [] [dotp A B])); [reflexivity|].
  symmetry. unfold assign. cbn [length order lens zeros tabulate forallb]. cbn [Nat.eqb andb].
  replace (term_ok (zeros []) [] (prodt [(A, [ch_i]); (B, [ch_i])])) with true.
  2:{ unfold term_ok, lengths_ok, dims. cbn [facs prodt forallb flat_map snd fst lens zeros tabulate combine app order length]. unfold order. rewrite HA, HB. cbn. rewrite !Nat.eqb_refl. reflexivity. }
  cbn [andb]. f_equal. unfold tabulate. cbn [all_idx map]. f_equal. f_equal. cbn [addressed combine consistent forallb terms_val fold_left].
  unfold term_val, dims. cbn [coef prodt facs flat_map snd fst app]. rewrite HA, HB. cbn [combine app].
  unfold contracted. cbn [flat_map snd app filter memc existsb negb nodup].
  destruct (in_dec Z.eq_dec ch_i [ch_i]) as [_|Hn]; [|exfalso; apply Hn; left; auto].
  destruct (in_dec Z.eq_dec ch_i []) as [[]|_].
  cbn [sumc]. change (assoc ch_i [(ch_i, n); (ch_i, n)]) with n. unfold dotp. rewrite HA. cbn [nth].
  rewrite (bigsum_ext (seq 0 n) _ (fun i => at_ A [i] * at_ B [i])); [ring|].
  intros i _. cbn [bigprod fold_right fst snd map]. rewrite !upd_same. ring.
Qed.
Lemma collinearity_ok (A B : tensor N) n : lens A = [n] -> lens B = [n] -> collinearity A B = Ok (collin A B).
Proof. intros HA HB. unfold collinearity. rewrite (dot1_ok A B n) by auto. reflexivity. Qed.

Section G.
Context (rnd : nat -> nat -> tensor N) (ls : list nat) (dim R : nat) (col_min col_max : N).
Hypothesis Hrnd : forall k n, is_vec (rnd k n) n.
Hypothesis Hls : length ls = dim.
Definition vshape (vec : list (list (tensor N))) : Prop :=
  length vec = R /\ forall i, i < R -> length (nth i vec []) = dim /\ forall j, j < dim -> is_vec (nth j (nth i vec []) tnil) (nth j ls 0).
Definition vget (vec : list (list (tensor N))) i j := nth j (nth i vec []) (tnil : tensor N).
Definition in_range (vec : list (list (tensor N))) i k j : Prop :=
  nltb (collin (vget vec i j) (vget vec k j)) col_min || nltb col_max (collin (vget vec i j) (vget vec k j)) = false.

Lemma first_bad_spec n : forall k i j vec, vshape vec -> i < R -> k + n <= R -> j < dim ->
  exists k', first_bad n k i j vec col_min col_max = Ok k' /\ k <= k' <= k + n /\
    (forall q, k <= q < k' -> in_range vec i q j) /\ (k' < k + n -> ~ in_range vec i k' j).
Proof.
  induction n; intros k i j vec Hv Hi Hk Hj; cbn [first_bad].
  - exists k. split; [auto|]. split; [lia|]. split; [intros; lia|]. lia.
  - pose proof Hv as (HL & Hs). destruct (Hs i Hi) as (Li & Si). destruct (Hs k ltac:(lia)) as (Lk & Sk).
    rewrite (lget_ok vec i []) by lia. cbn [bind]. rewrite (lget_ok _ _ tnil) by lia. cbn [bind].
    rewrite (lget_ok vec k []) by lia. cbn [bind]. rewrite (lget_ok _ _ tnil) by lia. cbn [bind].
    rewrite (collinearity_ok _ _ (nth j ls 0%nat)) by (apply Si || apply Sk; auto). cbn [bind].
    change (nth j (nth i vec []) tnil) with (vget vec i j). change (nth j (nth k vec []) tnil) with (vget vec k j).
    destruct (nltb (collin (vget vec i j) (vget vec k j)) col_min || nltb col_max (collin (vget vec i j) (vget vec k j))) eqn:E.
    + exists k. split; [auto|]. split; [lia|]. split; [intros; lia|]. intros _. unfold in_range. rewrite E. discriminate.
    + destruct (IHn (S k) i j vec Hv Hi ltac:(lia) Hj) as (k' & E' & H1 & H2 & H3). exists k'. split; [auto|]. split; [lia|]. split.
      * intros q Hq. destruct (Nat.eq_dec q k) as [->|]; [exact E|]. apply H2. lia.
      * intros. apply H3. lia.
Qed.
Definition same_but (vec vec' : list (list (tensor N))) i j : Prop :=
  forall i' j', i' < R -> (i' <> i \/ j' <> j) -> vget vec' i' j' = vget vec i' j'.
Lemma same_but_refl vec i j : same_but vec vec i j.
Proof. intros i' j' _ _. auto. Qed.
Lemma reselect_spec fuel : forall i j c vec, vshape vec -> i < R -> j < dim ->
  (exists c' vec', reselect rnd fuel i j (nth j ls 0%nat) col_min col_max c vec = Ok (c', vec') /\ vshape vec' /\ same_but vec vec' i j /\
     forall k, k < i -> in_range vec' i k j) \/
  reselect rnd fuel i j (nth j ls 0%nat) col_min col_max c vec = Err LoopFuel.
Proof.
  induction fuel; intros i j c vec Hv Hi Hj; cbn [reselect]; [auto|].
  destruct (first_bad_spec i 0 i j vec Hv Hi ltac:(lia) Hj) as (k & E & Hk & Hok & _). rewrite E. cbn [bind].
  destruct (Nat.eqb_spec k i) as [->|Hne].
  - left. exists c, vec. split; [auto|]. split; [auto|]. split; [apply same_but_refl|]. intros. apply Hok. lia.
  - pose proof Hv as (HL & Hs). destruct (Hs i Hi) as (Li & Si).
    rewrite (lget_ok vec i []) by lia. cbn [bind]. rewrite lput_ok by lia. cbn [bind]. rewrite lput_ok by lia. cbn [bind].
    set (vec1 := lset vec i (lset (nth i vec []) j (rnd c (nth j ls 0%nat)))).
    assert (Hg : forall i' j', i' < R -> vget vec1 i' j' = if (Nat.eqb i' i && Nat.eqb j' j)%bool then rnd c (nth j ls 0%nat) else vget vec i' j').
    { intros i' j' Hi'. unfold vget, vec1. rewrite lset_nth by lia. destruct (Nat.eqb_spec i' i) as [->|]; cbn [andb]; auto. rewrite lset_nth by lia. auto. }
    assert (Hv1 : vshape vec1).
    { split; [unfold vec1; rewrite lset_length; auto|]. intros i' Hi'. destruct (Hs i' Hi') as (L' & S'). split.
      - unfold vec1. rewrite lset_nth by lia. destruct (Nat.eqb_spec i' i) as [->|]; auto. rewrite lset_length. auto.
      - intros j' Hj'. change (nth j' (nth i' vec1 []) tnil) with (vget vec1 i' j'). rewrite Hg by auto.
        destruct (Nat.eqb_spec i' i); cbn [andb]; [|apply S'; auto]. destruct (Nat.eqb_spec j' j) as [->|]; [apply Hrnd|apply S'; auto]. }
    destruct (IHfuel i j (S c) vec1 Hv1 Hi Hj) as [(c' & vec' & E' & H1 & H2 & H3)|E']; [left|right; auto].
    exists c', vec'. split; [auto|]. split; [auto|]. split; [|auto].
    intros i' j' Hi' Hd. rewrite H2 by auto. rewrite Hg by auto. destruct (Nat.eqb_spec i' i), (Nat.eqb_spec j' j); cbn [andb]; auto. lia.
Qed.
Lemma init_spec : exists c vec, for_ 0 R (fun i (st : nat * list (list (tensor N))) => let '(c, vec) := st in
      '(c, vi) <- for_ 0 dim (fun j (st : nat * list (tensor N)) => let '(c, vi) := st in
          n <- lget ls j ;; Ok (S c, vi ++ [rnd c n])) (c, []) ;;
      Ok (c, vec ++ [vi])) (0%nat, []) = Ok (c, vec) /\ vshape vec.
Proof.
  destruct (for_inv (fun i (st : nat * list (list (tensor N))) => length (snd st) = i /\ forall i', i' < i -> length (nth i' (snd st) []) = dim /\ forall j, j < dim -> is_vec (nth j (nth i' (snd st) []) tnil) (nth j ls 0%nat))
    (fun i (st : nat * list (list (tensor N))) => let '(c, vec) := st in
      '(c, vi) <- for_ 0 dim (fun j (st : nat * list (tensor N)) => let '(c, vi) := st in
          n <- lget ls j ;; Ok (S c, vi ++ [rnd c n])) (c, []) ;;
      Ok (c, vec ++ [vi])) 0 R (0%nat, [])) as ((c & vec) & E & HL & HS).
  - lia.
  - split; [auto|]. intros; lia.
  - intros i (c & vec) Hi (HL & HS). cbn [snd] in *.
    destruct (for_inv (fun j (st : nat * list (tensor N)) => length (snd st) = j /\ forall j', j' < j -> is_vec (nth j' (snd st) tnil) (nth j' ls 0%nat))
      (fun j (st : nat * list (tensor N)) => let '(c, vi) := st in n <- lget ls j ;; Ok (S c, vi ++ [rnd c n])) 0 dim (c, [])) as ((c' & vi) & E & L & Sv).
    + lia.
    + split; [auto|]. intros; lia.
    + intros j (c1 & vi) Hj (L & Sv). cbn [snd] in *. rewrite (lget_ok _ _ 0%nat) by lia. cbn [bind]. eexists. split; [reflexivity|]. cbn [snd].
      split; [rewrite app_length; cbn; lia|]. intros j' Hj'. rewrite nth_snoc. destruct (Nat.ltb_spec j' (length vi)); [apply Sv; lia|].
      assert (j' = j) by lia. subst j'. destruct (Nat.eqb_spec j (length vi)); [apply Hrnd|lia].
    + rewrite E. cbn [bind]. eexists. split; [reflexivity|]. cbn [snd] in *. split; [rewrite app_length; cbn; lia|].
      intros i' Hi'. rewrite nth_snoc. destruct (Nat.ltb_spec i' (length vec)); [apply HS; lia|].
      destruct (Nat.eqb_spec i' (length vec)); [split; auto|lia].
  - exists c, vec. split; auto. cbn [snd] in *. split; auto.
Qed.
Definition pairs_ok (vec : list (list (tensor N))) : Prop := forall j i k, j < dim -> k < i < R -> in_range vec i k j.

Lemma in_range_same vec vec' i j i' k' j' : same_but vec vec' i j -> i' < R -> k' < R -> (j' <> j \/ (i' <> i /\ k' <> i)) ->
  in_range vec i' k' j' -> in_range vec' i' k' j'.
Proof.
  intros Hs Hi Hk Hd H. unfold in_range in *. rewrite (Hs i' j') by (auto; destruct Hd as [|[]]; auto).
  rewrite (Hs k' j') by (auto; destruct Hd as [|[]]; auto). auto.
Qed.
Lemma for_or {A} (P : nat -> A -> Prop) body lo hi s e : lo <= hi -> P lo s ->
  (forall j s, lo <= j < hi -> P j s -> (exists s', body j s = Ok s' /\ P (S j) s') \/ body j s = Err e) ->
  (exists s', for_ lo hi body s = Ok s' /\ P hi s') \/ for_ lo hi body s = Err e.
Proof.
  intros Hle. unfold for_. remember (hi - lo)%nat as n eqn:En. revert lo s Hle En.
  induction n; intros lo s Hle En H0 Hs; cbn [loop].
  - left. exists s. replace hi with lo by lia. auto.
  - destruct (Hs lo s ltac:(lia) H0) as [(s' & E & H)|E]; rewrite E; cbn [bind]; auto.
    apply IHn; auto; try lia. intros j s1 Hj. apply Hs. lia.
Qed.
Lemma gen_vec_spec fuel :
  (exists vec, gen_vec rnd fuel ls dim R col_min col_max = Ok vec /\ vshape vec /\ pairs_ok vec) \/
  gen_vec rnd fuel ls dim R col_min col_max = Err LoopFuel.
Proof.
  unfold gen_vec. destruct init_spec as (c & vec & E & Hv). rewrite E. cbn [bind]. clear E.
  match goal with |- context [for_ 0 dim ?b (c, vec)] => set (body := b) end.
  destruct (for_or (fun j (st : nat * list (list (tensor N))) => vshape (snd st) /\
      forall j' i k, j' < j -> k < i < R -> in_range (snd st) i k j') body 0 dim (c, vec) LoopFuel) as [((c' & vec') & E & H1 & H2)|E].
  - lia.
  - split; auto. intros; lia.
  - intros j (c1 & v1) Hj (H1 & H2). unfold body. cbn [snd] in *.
    destruct (Nat.le_gt_cases R 1) as [HR|HR].
    { left. exists (c1, v1). rewrite for_empty by lia. split; auto. split; auto. intros j' i k Hj' Hk. lia. }
    match goal with |- context [for_ 1 R ?b (c1, v1)] => set (ib := b) end.
    destruct (for_or (fun i (st : nat * list (list (tensor N))) => vshape (snd st) /\
      (forall j' i k, j' < j -> k < i < R -> in_range (snd st) i k j') /\ forall i' k, i' < i -> k < i' -> in_range (snd st) i' k j) ib 1 R (c1, v1) LoopFuel) as [((c2 & v2) & E & K1 & K2 & K3)|E].
    + lia.
    + split; auto. split; auto. intros; lia.
    + intros i (c2 & v2) Hi (K1 & K2 & K3). unfold ib. rewrite (lget_ok _ _ 0%nat) by lia. cbn [bind snd] in *.
      destruct (reselect_spec fuel i j c2 v2 K1 ltac:(lia) ltac:(lia)) as [(c3 & v3 & E & M1 & M2 & M3)|E]; [left|right; auto].
      exists (c3, v3). split; auto. cbn [snd]. split; auto. split.
      * intros j' i' k Hj' Hk. apply (in_range_same v2 v3 i j); auto; lia.
      * intros i' k Hi' Hk. destruct (Nat.eq_dec i' i) as [->|]; [apply M3; lia|].
        apply (in_range_same v2 v3 i j); auto; try lia. apply K3; lia.
    + left. exists (c2, v2). cbn [snd] in *. split; auto. split; auto.
      intros j' i k Hj' Hk. destruct (Nat.eq_dec j' j) as [->|]; [apply K3; lia|apply K2; lia].
    + right. auto.
  - rewrite E. cbn [bind snd] in *. left. exists vec'. split; auto.
  - rewrite E. right. auto.
Qed.
(** no acceptable value at all: the loop never ends *)
Lemma gen_vec_diverges fuel : (forall x : N, nltb x col_min || nltb col_max x = true) -> 2 <= R -> 1 <= dim ->
  gen_vec rnd fuel ls dim R col_min col_max = Err LoopFuel.
Proof.
  intros Hc HR Hd. destruct (gen_vec_spec fuel) as [(vec & E & Hv & Hp)|]; auto.
  exfalso. specialize (Hp 0%nat 1%nat 0%nat ltac:(lia) ltac:(lia)). unfold in_range in Hp. rewrite Hc in Hp. discriminate.
Qed.

(** ** the sum of the outer products *)
Definition dl (c : Z) : nat := if Z.eqb c 0 then nth 18 ls 0%nat else nth (Z.to_nat (c - 105)) ls 0%nat.
Lemma dl_cl m : m < 19 -> dl (cl m) = nth m ls 0%nat.
Proof.
  intros Hm. unfold dl. rewrite cl_val by lia. destruct (Nat.ltb_spec m 18).
  - destruct (Z.eqb_spec (105 + Z.of_nat m) 0); [lia|]. f_equal. lia.
  - assert (m = 18) by lia. subst. reflexivity.
Qed.
Lemma dl_lens : dim <= 19 -> map dl (cls dim) = ls.
Proof.
  intros Hd. apply (nth_ext _ _ 0%nat 0%nat); [rewrite map_length, cls_len; auto|]. intros n Hn. rewrite map_length, cls_len in Hn.
  rewrite (nth_map_lt _ _ _ 0%Z) by (rewrite cls_len; auto). rewrite cls_nth by auto. apply dl_cl. lia.
Qed.
Lemma acc_term (X Y : tensor N) a : dim <= 19 -> lens X = ls -> lens Y = ls -> wf X -> wf Y ->
  assign false X (cls dim) [mkTerm n1 [(X, cls dim)]; mkTerm a [(Y, cls dim)]] = Ok (tabulate ls (fun x => at_ X x + a * at_ Y x)).
Proof.
  intros Hd HX HY wX wY. pose proof (dl_lens Hd) as HL.
  destruct (assign_rep dl false X (cls dim) [mkTerm n1 [(X, cls dim)]; mkTerm a [(Y, cls dim)]]) as (B & E & RB).
  - apply cls_nodup. auto.
  - congruence.
  - intros t [<-|[<-|[]]]; cbn [facs]; intros p [<-|[]]; cbn [fst snd]; congruence.
  - rewrite E. f_equal. destruct RB as (R1 & R2 & R3). rewrite HL in R2. apply tensor_ext; auto; [apply tabulate_wf|].
    intros x Hx. rewrite R2 in Hx. destruct (inb_env dl (cls dim) x) as (e & Ee & Hr); [apply cls_nodup; lia|rewrite HL; auto|].
    rewrite at_tabulate by auto. rewrite <- Ee. rewrite R3 by auto. cbn [terms_val].
    assert (Hc : forall c, In c [] <-> In c (cls dim) /\ ~ In c (cls dim)) by (intros c; split; [intros []|intros [? H]; destruct (H ltac:(auto))]).
    assert (HT : forall (T : tensor N) b, lens T = ls -> wf T -> tval dl (cls dim) (mkTerm b [(T, cls dim)]) e = b * at_ T (map e (cls dim))).
    { intros T b HT wT. change [(T, cls dim)] with (map fst [((T, cls dim), fun e : env => at_ T (map e (cls dim)))]). rewrite (tval_rep RL dl (cls dim) _ [] b e).
      - cbn [sumc bigprod fold_right snd]. ring.
      - constructor; [|constructor]. cbn [fst snd]. apply rep_self; auto. congruence.
      - constructor.
      - intros c. split; [intros []|]. cbn [map flat_map fst snd]. rewrite app_nil_r. intros [H1 H2]. destruct (H2 H1).
      - auto.
      - intros q [<-|[]]. cbn [snd]. apply at_env. }
    cbn [tsval fold_left]. rewrite !HT by auto. ring.
Qed.
Lemma scale_term (C Y : tensor N) a : dim <= 19 -> lens C = ls -> lens Y = ls -> wf Y ->
  assign false C (cls dim) [mkTerm a [(Y, cls dim)]] = Ok (tabulate ls (fun x => a * at_ Y x)).
Proof.
  intros Hd HC HY wY. pose proof (dl_lens Hd) as HL.
  destruct (assign_rep dl false C (cls dim) [mkTerm a [(Y, cls dim)]]) as (B & E & RB).
  - apply cls_nodup. auto.
  - congruence.
  - intros t [<-|[]]; cbn [facs]; intros p [<-|[]]; cbn [fst snd]; congruence.
  - rewrite E. f_equal. destruct RB as (R1 & R2 & R3). rewrite HL in R2. apply tensor_ext; auto; [apply tabulate_wf|].
    intros x Hx. rewrite R2 in Hx. destruct (inb_env dl (cls dim) x) as (e & Ee & Hr); [apply cls_nodup; lia|rewrite HL; auto|].
    rewrite at_tabulate by auto. rewrite <- Ee. rewrite R3 by auto. cbn [tsval fold_left].
    change [(Y, cls dim)] with (map fst [((Y, cls dim), fun e : env => at_ Y (map e (cls dim)))]). rewrite (tval_rep RL dl (cls dim) _ [] a e).
    + cbn [sumc bigprod fold_right snd]. ring.
    + constructor; [|constructor]. cbn [fst snd]. apply rep_self; auto. congruence.
    + constructor.
    + intros c. split; [intros []|]. cbn [map flat_map fst snd]. rewrite app_nil_r. intros [H1 H2]. destruct (H2 H1).
    + auto.
    + intros q [<-|[]]. cbn [snd]. apply at_env.
Qed.
Definition spread (vec : list (list (tensor N))) (n : nat) (x : list nat) : N :=
  bigsum (seq 0 n) (fun i => lambda_ R i * outer_at (nth i vec []) x).
Lemma Gen_ok fuel : 2 <= dim <= 19 ->
  (exists vec, vshape vec /\ pairs_ok vec /\ Gen_collinearity rnd fuel ls dim R col_min col_max = Ok (tabulate ls (spread vec R))) \/
  Gen_collinearity rnd fuel ls dim R col_min col_max = Err LoopFuel.
Proof.
  intros Hd. unfold Gen_collinearity. rewrite (bset_ok (newbuf (dim + 1))) by (rewrite newbuf_length; lia). cbn [bind].
  destruct (chars_fill dim (lset (newbuf (dim + 1)) dim (Some 0%Z))) as (ba & Ea & La & Ta); [lia|rewrite lset_length, newbuf_length; lia|].
  rewrite Ea. cbn [bind].
  destruct (gen_vec_spec fuel) as [(vec & E & Hv & Hp)|E]; rewrite E; cbn [bind]; [|right; auto].
  left. exists vec. split; auto. split; auto.
  assert (EX : new_tensor dim (map Some ls) = Ok (zeros ls : tensor N)).
  { unfold new_tensor. rewrite (take_list dim _ ls 0%nat); [reflexivity|auto|].
    intros k Hk. rewrite nth_error_map, (nth_error_nth' ls 0%nat) by lia. auto. }
  rewrite EX. cbn [bind].
  match goal with |- for_ 0 R ?b _ = _ => set (body := b) end.
  destruct (for_inv (fun i (X : tensor N) => X = tabulate ls (spread vec i)) body 0 R (zeros ls)) as (X & EX' & HX).
  - lia.
  - reflexivity.
  - intros i X Hi ->. unfold body. destruct Hv as (HLv & Hs). destruct (Hs i ltac:(lia)) as (Lv & Sv).
    rewrite (lget_ok vec i []) by lia. cbn [bind].
    rewrite (build_V_vec_ok (nth i vec []) dim) by (auto; intros m Hm; eexists; apply Sv; auto). cbn [bind].
    assert (Lo : lens (outer (nth i vec [])) = ls).
    { cbn [lens outer tabulate]. apply (nth_ext _ _ 0%nat 0%nat); [rewrite map_length; lia|]. intros n Hn. rewrite map_length in Hn.
      rewrite (nth_map_lt _ _ _ tnil) by auto. destruct (Sv n ltac:(lia)) as (Hl & _). rewrite Hl. auto. }
    unfold tix. unfold order. rewrite Lo. cbn [lens tabulate]. rewrite Hls, Ta by lia. cbn [bind snd].
    rewrite acc_term by (auto; try apply tabulate_wf; lia).
    eexists. split; [reflexivity|]. apply tabulate_ext. intros x Hx. rewrite at_tabulate by auto. unfold outer.
    rewrite at_tabulate by (cbn [lens outer tabulate] in Lo; rewrite Lo; auto).
    unfold spread. rewrite seq_S, (bigsum_app RL). cbn [Nat.add bigsum fold_right]. ring.
  - rewrite EX', HX. auto.
Qed.
End G.
End P.
