(** First-level contraction and recursive evaluation of the position tree *)
From Coq Require Import List ZArith Lia Bool Arith Permutation Ring.
From Verif Require Import Base Num Tensor Spec Spec3 MCommon MCP MOpt PBase PTensor PSum PMttkrp PPart PMat PKhatri PGrad PMatAlg PResid
  PSolve PTree PDT PDTSweep PALS PropPP POpt POptTree.
Import ListNotations.

Lemma nth_error_ext {A} (a b : list A) : (forall k, nth_error a k = nth_error b k) -> a = b.
Proof.
  revert b. induction a as [|x a IH]; intros [|y b] H; auto; try (specialize (H 0); discriminate).
  assert (H0 := H 0). injection H0 as ->. f_equal. apply IH. intros k. apply (H (S k)).
Qed.
Lemma firstn_S_nth {A} (l : list A) i d : i < length l -> firstn (S i) l = firstn i l ++ [nth i l d].
Proof. revert i. induction l as [|x l IH]; intros i H; cbn in H; [lia|]. destruct i; cbn; auto. f_equal. apply IH. lia. Qed.
(** ** the buffers *)
Definition obuf (o : nat) : buf Z := lbuf o ++ newbuf (99 - o).
Lemma opt_seqV_ok o : o <= 99 -> opt_seqV o = Ok (obuf o).
Proof.
  intros Ho. unfold opt_seqV. rewrite bset_ok by (rewrite newbuf_length; lia). cbn [bind].
  destruct (fill_for 0 o (fun j b => bset b j (chr j)) 0 chr (lset (newbuf 100) o (Some 0%Z)) 100) as (b & E & Lb & Pb).
  - rewrite lset_length. reflexivity.
  - lia.
  - intros j b Hj Hb. f_equal. lia.
  - rewrite E. f_equal. apply nth_error_ext. intros k. rewrite Pb. unfold obuf.
    assert (HL : length (lbuf o) = o + 1) by (unfold lbuf; rewrite map_length, app_length, map_length, seq_length; auto).
    rewrite lset_nth_error, newbuf_length.
    destruct (Nat.lt_ge_cases k o) as [Hlt|Hge].
    + rewrite nth_error_app1 by lia. destruct (Nat.leb_spec 0 k); [|lia]. destruct (Nat.ltb_spec k (0 + (o - 0))); [|lia]. cbn [andb].
      unfold lbuf. rewrite nth_error_map. rewrite nth_error_app1 by (rewrite map_length, seq_length; auto).
      rewrite (map_nth_error chr k (seq 0 o) (d := k)). 2:{ rewrite (nth_error_nth' _ 0) by (rewrite seq_length; auto). rewrite seq_nth; auto. }
      cbn. do 3 f_equal. lia.
    + destruct (Nat.leb_spec 0 k); [|lia]. destruct (Nat.ltb_spec k (0 + (o - 0))); [lia|]. cbn [andb].
      destruct (Nat.eqb_spec k o) as [->|Hne].
      * rewrite nth_error_app1 by lia. destruct (Nat.ltb_spec o 100); [|lia]. unfold lbuf. rewrite nth_error_map.
        rewrite nth_error_app2 by (rewrite map_length, seq_length; auto). rewrite map_length, seq_length, Nat.sub_diag. auto.
      * rewrite nth_error_app2 by lia. rewrite HL. unfold newbuf. destruct (Nat.lt_ge_cases k 100).
        -- rewrite !nth_error_repeat by lia. auto.
        -- rewrite (proj2 (nth_error_None _ _)) by (rewrite repeat_length; lia). symmetry. apply nth_error_None. rewrite repeat_length. lia.
Qed.
Lemma obuf_nth o k : k < o -> o <= 99 -> nth_error (obuf o) k = Some (Some (chr k)).
Proof.
  intros Hk Ho. unfold obuf. rewrite nth_error_app1 by (unfold lbuf; rewrite map_length, app_length, map_length, seq_length; lia).
  unfold lbuf. rewrite nth_error_map. rewrite nth_error_app1 by (rewrite map_length, seq_length; auto).
  rewrite (map_nth_error chr k (seq 0 o) (d := k)); auto. rewrite (nth_error_nth' _ 0) by (rewrite seq_length; auto). rewrite seq_nth; auto.
Qed.
Lemma obuf_take o : o <= 99 -> take o (obuf o) = Ok (letters chr o).
Proof. intros Ho. unfold letters. apply take_spec. intros i Hi. apply obuf_nth; auto. Qed.
Lemma opt_tree_top_ok o : 2 <= o <= 31 -> opt_tree_top o = Ok (sstr (seq 0 (o - 1))).
Proof.
  intros Ho. unfold opt_tree_top. rewrite bset_ok by (rewrite newbuf_length; lia). cbn [bind].
  destruct (fill_for 0 o (fun j b => bset b j (chr j)) 0 chr (lset (newbuf 100) o (Some 0%Z)) 100) as (b & E & Lb & Pb).
  - rewrite lset_length. reflexivity.
  - lia.
  - intros j b Hj Hb. f_equal. lia.
  - rewrite E. cbn [bind]. rewrite bset_ok by lia. cbn [bind]. apply holds_cstr.
    + split.
      * rewrite sstr_length, seq_length. intros i Hi. rewrite lset_nth_error, Pb, lset_nth_error, newbuf_length, Lb. unfold sstr.
        destruct (Nat.eqb_spec i (o - 1)) as [->|].
        -- destruct (Nat.ltb_spec (o - 1) 100); [|lia]. rewrite app_nth2 by (rewrite map_length, seq_length; auto). rewrite map_length, seq_length, Nat.sub_diag. auto.
        -- destruct (Nat.leb_spec 0 i); [|lia]. destruct (Nat.ltb_spec i (0 + (o - 0))); [|lia]. cbn [andb].
           rewrite app_nth1 by (rewrite map_length, seq_length; lia). rewrite (nth_map_lt _ _ _ 0) by (rewrite seq_length; lia). rewrite seq_nth by lia. do 3 f_equal. lia.
      * rewrite sstr_length, seq_length. rewrite lset_nth_error, Pb, lset_nth_error, newbuf_length, Lb.
        destruct (Nat.eqb_spec (o - 1 + 1) (o - 1)); [lia|]. destruct (Nat.leb_spec 0 (o - 1 + 1)); [|lia]. destruct (Nat.ltb_spec (o - 1 + 1) (0 + (o - 0))); [lia|]. cbn [andb].
        destruct (Nat.eqb_spec (o - 1 + 1) o); [|lia]. destruct (Nat.ltb_spec o 100); [auto|lia].
    + apply sstr_nz. intros m Hm. apply in_seq in Hm. lia.
Qed.
Lemma fill_pair_buf (b : buf Z) lo n j : j + n <= length b ->
  exists b', for_ lo (lo + n) (fun i st => let '(b, j) := st in b <- bset b j (chr i) ;; Ok (b, j + 1)) (b, j) = Ok (b', j + n) /\
    length b' = length b /\ forall k, nth_error b' k = if (j <=? k) && (k <? j + n) then Some (Some (chr (lo + (k - j)))) else nth_error b k.
Proof.
  intros Hj. destruct (for_inv (fun i (st : buf Z * nat) => length (fst st) = length b /\ snd st = j + (i - lo) /\
      forall k, nth_error (fst st) k = if (j <=? k) && (k <? j + (i - lo)) then Some (Some (chr (lo + (k - j)))) else nth_error b k)
    (fun i st => let '(b, j) := st in b <- bset b j (chr i) ;; Ok (b, j + 1)) lo (lo + n) (b, j)) as ([ix' j'] & E & H1 & H2 & H3).
  - lia.
  - cbn [fst snd]. split; [auto|]. split; [lia|]. intros k. destruct (Nat.leb_spec j k), (Nat.ltb_spec k (j + (lo - lo))); cbn [andb]; auto; exfalso; lia.
  - intros i [x y] Hi (H1 & H2 & H3). cbn [fst snd] in *. rewrite bset_ok by lia. cbn [bind]. eexists; split; [reflexivity|].
    cbn [fst snd]. rewrite lset_length. split; auto. split; [lia|]. intros k. rewrite lset_nth_error. specialize (H3 k). subst y.
    destruct (Nat.eqb_spec k (j + (i - lo))) as [->|Hne].
    + destruct (Nat.ltb_spec (j + (i - lo)) (length x)); [|lia].
      destruct (Nat.leb_spec j (j + (i - lo))), (Nat.ltb_spec (j + (i - lo)) (j + (S i - lo))); cbn [andb]; try lia. do 3 f_equal. lia.
    + rewrite H3. clear - Hne Hi. destruct (Nat.leb_spec j k), (Nat.ltb_spec k (j + (i - lo))), (Nat.ltb_spec k (j + (S i - lo))); cbn [andb]; auto; exfalso; lia.
  - cbn [fst snd] in *. exists ix'. rewrite E. replace (lo + n - lo) with n in * by lia. subst j'. auto.
Qed.
Lemma map_init_seq_ok o l : 2 <= o <= 31 -> l < o -> map_init_seq o l = Ok (sstr (after o l)).
Proof.
  intros Ho Hl. unfold map_init_seq. rewrite bset_ok by (rewrite newbuf_length; lia). cbn [bind].
  rewrite bset_ok by (rewrite lset_length, newbuf_length; lia). cbn [bind].
  set (b0 := lset _ _ _).
  assert (HL0 : length b0 = 100) by (unfold b0; rewrite !lset_length; apply newbuf_length).
  destruct (fill_pair_buf b0 (l + 1) (o - (l + 1)) 0) as (b1 & E1 & L1 & P1); [lia|].
  replace (l + 1 + (o - (l + 1))) with o in E1 by lia. rewrite E1. cbn [bind].
  destruct (fill_pair_buf b1 0 l (0 + (o - (l + 1)))) as (b2 & E2 & L2 & P2); [lia|].
  cbn [Nat.add] in E2, P2 |- *. rewrite E2. cbn [bind].
  assert (Hlen : length (sstr (after o l)) = o) by (rewrite sstr_length, after_length; lia).
  apply holds_cstr.
  - split.
    + rewrite Hlen. intros k Hk. rewrite P2, P1. unfold sstr. destruct (Nat.eq_dec k (o - 1)) as [->|].
      * destruct (Nat.leb_spec (o - (l + 1)) (o - 1)), (Nat.ltb_spec (o - 1) (o - (l + 1) + l)), (Nat.leb_spec 0 (o - 1)), (Nat.ltb_spec (o - 1) (0 + (o - (l + 1)))); cbn [andb]; try lia.
        unfold b0. rewrite lset_nth_error, !lset_length, Nat.eqb_refl, newbuf_length. destruct (Nat.ltb_spec (o - 1) 100); [|lia].
        rewrite app_nth2 by (rewrite map_length, after_length; lia). rewrite map_length, after_length, Nat.sub_diag by auto. auto.
      * rewrite app_nth1 by (rewrite map_length, after_length; lia). rewrite (nth_map_lt _ _ _ 0) by (rewrite after_length; lia). rewrite after_nth by lia.
        destruct (Nat.leb_spec (o - (l + 1)) k), (Nat.ltb_spec k (o - (l + 1) + l)), (Nat.leb_spec 0 k), (Nat.ltb_spec k (0 + (o - (l + 1)))); cbn [andb]; try lia;
        do 3 f_equal; cyc.
    + rewrite Hlen, P2, P1. destruct (Nat.leb_spec (o - (l + 1)) o), (Nat.ltb_spec o (o - (l + 1) + l)), (Nat.leb_spec 0 o), (Nat.ltb_spec o (0 + (o - (l + 1)))); cbn [andb]; try lia.
      unfold b0. rewrite !lset_nth_error, !lset_length, newbuf_length. destruct (Nat.eqb_spec o (o - 1)); [lia|]. rewrite Nat.eqb_refl.
      destruct (Nat.ltb_spec o 100); [auto|lia].
  - apply sstr_nz. intros m Hm. rewrite after_cmode in Hm by auto. apply in_map_iff in Hm as (p & <- & Hp). apply in_seq in Hp.
    assert (cmode o l p < o) by (apply cmode_lt; lia). lia.
Qed.

Lemma after_in o l m : l < o -> In m (after o l) <-> m < o /\ m <> l.
Proof. intros H. unfold after. rewrite in_app_iff, !in_seq. lia. Qed.
Lemma after_nodup o l : NoDup (after o l).
Proof. unfold after. apply NoDup_app_intro; try apply seq_NoDup. intros x Hx Hy. apply in_seq in Hx, Hy. lia. Qed.

Section P.
Context {N : num} (RL : ring_laws N).
Local Open Scope num_scope.
Context (V : tensor N) (R : nat).
Let o := order V.
Hypothesis Ho : (3 <= o <= 31)%nat.
Lemma Ho1 : (1 <= o <= 31)%nat. Proof. lia. Qed.

Lemma node_lens_ok W f (g : nat -> nat) rest : factors_ok V W R -> (forall p, In p rest -> p <= 30)%nat ->
  (forall p, In p rest -> f p = Ok (g p) /\ g p < o)%nat ->
  node_lens V W f (sstr rest) = Ok (map (fun p => nth (g p) (lens V) 0%nat) rest ++ [R]).
Proof.
  intros HW Hs Hf. unfold node_lens. destruct (W0_col V R Ho1 W HW) as (W0 & EW & EC).
  set (out := map (fun p => nth (g p) (lens V) 0%nat) rest ++ [R]).
  destruct (for_inv (fun i ls => ls = firstn i out) (fun ii ls =>
      c <- lget (sstr rest) ii ;;
      l <- (if Z.eqb c ch_star then W0 <- lget W 0 ;; Ok (ncol W0) else p <- ix c ;; m <- f p ;; lget (lens V) m) ;;
      Ok (ls ++ [l])) 0%nat (length (sstr rest)) []) as (s & E & Hs').
  - lia.
  - auto.
  - intros i ls Hi ->. rewrite (lget_ok _ _ 0%Z) by lia. cbn [bind]. rewrite sstr_length in Hi.
    assert (Hout : length out = (length rest + 1)%nat) by (unfold out; rewrite app_length, map_length; auto).
    assert (Hx : (if Z.eqb (nth i (sstr rest) 0%Z) ch_star then W0 <- lget W 0 ;; Ok (ncol W0)
        else p <- ix (nth i (sstr rest) 0%Z) ;; m <- f p ;; lget (lens V) m) = Ok (nth i out 0%nat)).
    { unfold sstr. destruct (Nat.eq_dec i (length rest)) as [->|].
      - rewrite app_nth2 by (rewrite map_length; auto). rewrite map_length, Nat.sub_diag. cbn [nth]. rewrite Z.eqb_refl, EW. cbn [bind].
        unfold out. rewrite app_nth2 by (rewrite map_length; auto). rewrite map_length, Nat.sub_diag. cbn [nth]. congruence.
      - assert (Hlt : (i < length rest)%nat) by lia. rewrite app_nth1 by (rewrite map_length; auto). rewrite (nth_map_lt _ _ _ 0%nat) by auto.
        assert (Hin : In (nth i rest 0%nat) rest) by (apply nth_In; auto). specialize (Hs _ Hin).
        destruct (Z.eqb_spec (chr (nth i rest 0%nat)) ch_star) as [E|]; [exfalso; revert E; apply chr_not_star; lia|].
        rewrite ix_chr by auto. cbn [bind]. destruct (Hf _ Hin) as [Ef Hg]. rewrite Ef. cbn [bind].
        rewrite (lget_ok _ _ 0%nat) by auto. f_equal. unfold out. rewrite app_nth1 by (rewrite map_length; auto).
        rewrite (nth_map_lt _ _ _ 0%nat) by auto. auto. }
    rewrite Hx. cbn [bind]. eexists; split; [reflexivity|]. symmetry. apply firstn_S_nth. lia.
  - rewrite E. f_equal. rewrite Hs'. apply firstn_all2. unfold out. rewrite sstr_length, app_length, map_length. cbn. lia.
Qed.

Theorem fresh_top_ok W l : factors_ok V W R -> (l < o)%nat -> fresh_top V W (obuf o) l = Ok (partial_mttkrp V W (after o l) R).
Proof.
  intros HW Hl. unfold fresh_top. fold o. rewrite map_init_seq_ok by (auto; lia). cbn [bind].
  rewrite (node_lens_ok W (fun m => Ok m) (fun m => m)); auto.
  2:{ intros p Hp. apply after_in in Hp; lia. }
  2:{ intros p Hp. apply after_in in Hp; auto. tauto. }
  cbn [bind]. rewrite (W_get V R Ho1 W l HW Hl). cbn [bind]. rewrite obuf_take by lia. cbn [bind].
  destruct (dstep0 RL V R Ho1 W (after o l) l (zeros (map (fun p => nth p (lens V) 0%nat) (after o l) ++ [R]))) as (B & E & HB); auto.
  - apply after_nodup.
  - intros x. apply after_in. auto.
  - symmetry. apply (sstr_lens V R Ho1). intros x Hx. apply after_in in Hx; auto. tauto.
  - fold o in E. rewrite E. f_equal.
    rewrite (rep_partial RL (dV (lens V) ch_star R) chr ch_star o (DT_inj V Ho1) (DT_fresh V Ho1) V W (after o l) [l] B HB).
    + rewrite (DT_rk V R). auto.
    + apply after_nodup.
    + intros m Hm. apply after_in in Hm; auto. tauto.
    + apply (DT_letters V R Ho1).
    + apply NoDup_Permutation; [repeat constructor; auto|apply outside_nodup|]. intros x. cbn [In]. rewrite outside_in, after_in by auto. lia.
Qed.

(** ** recursive evaluation *)
Context (t : tree).
Hypothesis Ht : good_tree (o - 1) t.
Context (l : nat).
Hypothesis Hl : (l < o)%nat.
Let n := (o - 1)%nat.
Let mode := cmode o l.
Definition nodeT (W : list (tensor N)) (j i : nat) : tensor N := partial_mttkrp V W (map mode (nd j i)) R.
(** in scope when position i is next: nodes of branch i, and the left spine from i on *)
Definition scope (i j i' : nat) : Prop := (j <= i' /\ i' < n /\ (i' = i \/ (j = i' /\ i <= i')))%nat.
Lemma scope_bounds i j i' : scope i j i' -> (j <= i' /\ i' < o - 1 /\ i' <= 30)%nat.
Proof. unfold scope, n. lia. Qed.
Definition oinv (i : nat) (W : list (tensor N)) (mp : smap (tensor N)) : Prop :=
  mp (sstr (nd (n - 1) (n - 1))) = Some (nodeT W (n - 1) (n - 1)) /\
  (forall j i' T, scope i j i' -> mp (sstr (nd j i')) = Some T -> T = nodeT W j i') /\
  (forall j i', j < i' -> i < i' -> i' < n -> mp (sstr (nd j i')) = None)%nat.

Lemma oinv_put i W mp j i' : oinv i W mp -> scope i j i' -> oinv i W (sput mp (sstr (nd j i')) (nodeT W j i')).
Proof.
  intros (H1 & H2 & H3) (Sa & Sb & Sc). unfold oinv, n in *. split; [|split].
  - destruct (list_eq_dec Z.eq_dec (sstr (nd (o - 1 - 1) (o - 1 - 1))) (sstr (nd j i'))) as [E|E].
    + rewrite E, sput_eq. apply snd_inj in E as [-> ->]; try lia. auto.
    + rewrite sput_neq; auto.
  - intros j2 i2 T Hs E. destruct (list_eq_dec Z.eq_dec (sstr (nd j2 i2)) (sstr (nd j i'))) as [E2|E2].
    + rewrite E2, sput_eq in E. unfold scope, n in Hs. apply snd_inj in E2 as [-> ->]; try lia. injection E as <-. auto.
    + rewrite sput_neq in E by auto. apply H2 with (1 := Hs). auto.
  - intros j2 i2 Ha Hb Hc. rewrite sput_neq; [apply H3; auto|]. intros E. apply snd_inj in E; lia.
Qed.
Lemma opt_map_ok W i : factors_ok V W R -> (i < n)%nat -> forall fuel j i' mp,
  scope i j i' -> ~ (j = n - 1 /\ i' = n - 1)%nat -> ((i' - j) + (n - 1 - i') < fuel)%nat -> oinv i W mp ->
  exists mp', opt_map_DT fuel V W t (after o l) mp (sstr (nd j i')) = Ok mp' /\ oinv i W mp' /\
     mp' (sstr (nd j i')) = Some (nodeT W j i').
Proof.
  intros HW Hi. induction fuel as [|fuel IH]; intros j i' mp Hs Hnt Hf Hinv; [lia|].
  destruct Hs as (Sa & Sb & Sc). cbn [opt_map_DT].
  assert (Hhas : has t j i') by (apply Ht; fold n; lia).
  destruct Hhas as [HP HC]. unfold sget. rewrite HP, HC.
  set (pj := if (j <? i')%nat then S j else S i'). set (pi := if (j <? i')%nat then i' else S i').
  set (cp := if (j <? i')%nat then j else S i').
  replace (if (j <? i')%nat then nd (S j) i' else nd (S i') (S i')) with (nd pj pi) by (unfold pj, pi; destruct (j <? i')%nat; auto).
  assert (Hps : scope i pj pi) by (unfold scope, pj, pi; destruct (Nat.ltb_spec j i'); lia).
  assert (Hq : exists mp1, (match mp (sstr (nd pj pi)) with None => opt_map_DT fuel V W t (after o l) mp (sstr (nd pj pi)) | Some _ => Ok mp end) = Ok mp1 /\
     oinv i W mp1 /\ mp1 (sstr (nd pj pi)) = Some (nodeT W pj pi)).
  { destruct (mp (sstr (nd pj pi))) as [T|] eqn:E.
    - exists mp. split; auto. split; auto. rewrite E. f_equal. apply Hinv with (1 := Hps). auto.
    - apply IH; auto.
      + intros [-> ->]. destruct Hinv as (H & _). congruence.
      + clear - Hf Sa Sb Sc Hnt Hi. unfold pj, pi. destruct (Nat.ltb_spec j i'); lia. }
  destruct Hq as (mp1 & E1 & Hinv1 & EP). rewrite E1. cbn [bind].
  assert (Hcpn : (cp < n)%nat) by (clear - Sa Sb Sc Hnt; unfold cp; destruct (Nat.ltb_spec j i'); lia).
  replace (str_at (sstr [cp]) 0) with (Ok (chr cp)) by reflexivity. cbn [bind].
  rewrite ix_chr by (unfold n in *; lia). cbn [bind].
  assert (Hget : forall p, (p < n)%nat -> lget (after o l) p = Ok (mode p)).
  { intros p Hp. rewrite (lget_ok _ _ 0%nat) by (rewrite after_length; auto). rewrite after_nth; auto. }
  assert (Hin : forall p, In p (nd j i') -> (p < n)%nat) by (intros p Hp; apply nd_in in Hp; lia).
  rewrite (node_lens_ok W (fun p => lget (after o l) p) mode); auto.
  2:{ intros p Hp. apply Hin in Hp. unfold n in *; lia. }
  2:{ intros p Hp. apply Hin in Hp. split; [auto|]. apply cmode_lt; auto. unfold n in *; lia. }
  cbn [bind]. rewrite Hget by auto. cbn [bind]. rewrite (W_get V R Ho1 W (mode cp)) by (auto; apply cmode_lt; auto; unfold n in *; lia). cbn [bind].
  unfold tget. rewrite EP. 
  assert (HC2 := pos_contract RL V R Ho l Hl W (nd pj pi) (nd j i') cp HW).
  unfold plens in HC2. fold o mode in HC2. fold (nodeT W pj pi) in HC2. fold (nodeT W j i') in HC2.
  rewrite HC2; clear HC2.
  - cbn [bind]. eexists. split; [reflexivity|]. split; [|apply sput_eq]. apply oinv_put; auto. unfold scope. lia.
  - intros q Hq. apply nd_in in Hq. clear - Hq Hps. unfold scope, n in *. lia.
  - apply nd_nodup. clear - Hps. unfold scope in *. lia.
  - apply nd_in. clear - Sa. unfold cp, pj, pi. destruct (Nat.ltb_spec j i'); lia.
  - apply nd_nodup. auto.
  - intros q. rewrite !nd_in. clear - Sa. unfold cp, pj, pi. destruct (Nat.ltb_spec j i'); lia.
Qed.
(** the matrix used for position i *)
Theorem leaf_ok fuel W i mp : factors_ok V W R -> (i < n)%nat -> (n <= fuel)%nat -> oinv i W mp ->
  exists mp', leaf_M fuel V W t (after o l) mp i = Ok (mp', mttkrp V W (mode i) R) /\ oinv i W mp'.
Proof.
  intros HW Hi Hf Hinv. unfold leaf_M. rewrite vec2str_ok by (intros v [<-|[]]; unfold n in *; lia). cbn [bind].
  change [i] with (nd 0 i). assert (Hsc : scope i 0 i) by (unfold scope; lia).
  assert (Hm : nodeT W 0 i = mttkrp V W (mode i) R) by apply partial_one.
  destruct (mp (sstr (nd 0 i))) as [T|] eqn:E.
  - cbn [bind]. exists mp. split; auto. unfold tget. rewrite E. rewrite <- Hm. do 2 f_equal. apply Hinv with (1 := Hsc). auto.
  - destruct (opt_map_ok W i HW Hi fuel 0 i mp) as (mp' & E' & Hinv' & EP); auto; [unfold n; lia|lia|].
    rewrite E'. cbn [bind]. exists mp'. split; auto. unfold tget. rewrite EP, Hm. auto.
Qed.
(** a fresh map *)
Lemma oinv_start i W : (i < n)%nat -> oinv i W (sput sempty (sstr (seq 0 n)) (partial_mttkrp V W (after o l) R)).
Proof.
  intros Hi. assert (E : seq 0 n = nd (n - 1) (n - 1)) by (rewrite nd_diag; f_equal; unfold n; lia).
  assert (EN : partial_mttkrp V W (after o l) R = nodeT W (n - 1) (n - 1)).
  { unfold nodeT. rewrite <- E. unfold mode, n. rewrite after_cmode; auto. }
  rewrite E, EN. unfold oinv, n in *. split; [apply sput_eq|]. split.
  - intros j i' T (Sa & Sb & Sc) E2. destruct (list_eq_dec Z.eq_dec (sstr (nd j i')) (sstr (nd (o - 1 - 1) (o - 1 - 1)))) as [E3|E3].
    + rewrite E3, sput_eq in E2. unfold n in *. apply snd_inj in E3 as [-> ->]; try lia. injection E2 as <-. auto.
    + rewrite sput_neq in E2 by auto. discriminate.
  - intros j i' Ha Hb Hc. rewrite sput_neq; auto. intros E2. apply snd_inj in E2; lia.
Qed.
(** after the factor of position i has been replaced *)
Lemma oinv_next i W mp X : (length W = o)%nat -> (S i < n)%nat -> oinv i W mp -> oinv (S i) (setf W (mode i) X) mp.
Proof.
  intros HW Hi (H1 & H2 & H3).
  assert (Hm : (mode i < o)%nat) by (apply cmode_lt; unfold n in *; lia).
  assert (Hx : forall j, (i <= j)%nat -> (j < n)%nat -> nodeT (setf W (mode i) X) j j = nodeT W j j).
  { intros j Hj Hj2. unfold nodeT. apply partial_ext. intros m Hmo Hni. unfold fac, setf. rewrite lset_nth by lia.
    destruct (Nat.eqb_spec m (mode i)) as [->|]; auto. exfalso. apply Hni. apply in_map, nd_in. lia. }
  split; [|split].
  - rewrite Hx by (unfold n in *; lia). auto.
  - intros j i' T (Sa & Sb & Sc) E. destruct (Nat.eq_dec j i') as [->|Hne].
    + rewrite Hx by lia. apply (H2 i' i' T); auto. unfold scope. lia.
    + rewrite H3 in E; [discriminate|lia|lia|auto].
  - intros j i' Ha Hb Hc. apply H3; lia.
Qed.
End P.
