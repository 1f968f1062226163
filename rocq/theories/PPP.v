(** The pairwise-perturbation operators *)
From Coq Require Import List ZArith Lia Bool Arith Permutation Ring.
From Verif Require Import Base Num Tensor Spec MCommon MCP PBase PTensor PSum PMttkrp PPart PMat PKhatri PGrad PTree PDT PDTSweep PALS PDrivers.
Import ListNotations.

(** ** ascending lists of modes *)
Definition asc (o : nat) (ms : list nat) : Prop := exists p, ms = filter p (seq 0 o).
Lemma seq_split j o : j <= o -> seq 0 o = seq 0 j ++ seq j (o - j).
Proof. intros H. replace o with (j + (o - j)) at 1 by lia. apply seq_app. Qed.
Lemma asc_lt o ms m : asc o ms -> In m ms -> m < o.
Proof. intros (p & ->) H. apply filter_In in H as [H _]. apply in_seq in H. lia. Qed.
Lemma asc_nodup o ms : asc o ms -> NoDup ms.
Proof. intros (p & ->). apply NoDup_filter, seq_NoDup. Qed.
Lemma asc_firstn o ms k : asc o ms -> asc o (firstn k ms).
Proof.
  intros (p & ->). assert (H : exists j, j <= o /\ firstn k (filter p (seq 0 o)) = filter p (seq 0 j)).
  { induction o as [|o IH].
    - exists 0. split; auto. destruct k; auto.
    - destruct IH as (j & Hj & E). rewrite seq_S, filter_app. cbn [Nat.add].
      destruct (Nat.le_gt_cases k (length (filter p (seq 0 o)))).
      + exists j. split; [lia|]. rewrite firstn_app. replace (k - length (filter p (seq 0 o))) with 0 by lia.
        cbn [firstn]. rewrite app_nil_r. auto.
      + exists (S o). split; auto. rewrite firstn_all2. { rewrite seq_S, filter_app. auto. }
        rewrite app_length. cbn. destruct (p o); cbn; lia. }
  destruct H as (j & Hj & ->). exists (fun m => p m && (m <? j)). rewrite (seq_split j o Hj), filter_app.
  replace (filter (fun m => p m && (m <? j)) (seq j (o - j))) with (@nil nat).
  - rewrite app_nil_r. apply filter_ext_in. intros m Hm. apply in_seq in Hm.
    destruct (Nat.ltb_spec m j); [|lia]. rewrite andb_true_r. auto.
  - symmetry. rewrite (filter_ext_in _ (fun _ => false)).
    + clear. induction (seq j (o - j)); auto.
    + intros m Hm. apply in_seq in Hm. destruct (Nat.ltb_spec m j); [lia|]. apply andb_false_r.
Qed.
Lemma outside_filter o p : outside (filter p (seq 0 o)) o = filter (fun m => negb (p m)) (seq 0 o).
Proof.
  unfold outside. apply filter_ext_in. intros m Hm. f_equal.
  destruct (p m) eqn:E.
  - apply existsb_nat. apply filter_In. auto.
  - destruct (existsb _ _) eqn:E2; auto. apply existsb_nat in E2. apply filter_In in E2 as [_ E2]. congruence.
Qed.
Lemma filter_len_compl {A} (p : A -> bool) l : length (filter p l) + length (filter (fun x => negb (p x)) l) = length l.
Proof. induction l; cbn; auto. destruct (p a); cbn; lia. Qed.

(** ** stringbuilder_mttkrp *)
Lemma letters_buf o : exists c, fill_letters o (newbuf (o + 1)) = Ok c /\ length c = o + 1 /\
  forall k, k < o -> nth_error c k = Some (Some (chr k)).
Proof.
  unfold fill_letters.
  destruct (fill_for 0 o (fun j b => bset b j (chr j)) 0 chr (newbuf (o + 1)) (o + 1)) as (c & E & L & Pc).
  - blen.
  - lia.
  - intros. f_equal. lia.
  - exists c. split; auto. split; auto. intros k Hk. rewrite Pc. natcases. cbn. rewrite Nat.sub_0_r. auto.
Qed.

(** the loop: letters that are not hit are copied *)
Section SB.
Context (o : nat) (Ho : o <= 31) (sq : str) (complete : buf Z).
Hypothesis Hcomp : forall k, k < o -> nth_error complete k = Some (Some (chr k)).
Definition sb_body := fun ii (st : buf Z * nat * nat) =>
        let '(contract, jj, kk) := st in
        c <- bget complete ii ;;
        hit <- (if jj <? length sq then s <- str_at sq jj ;; Ok (Z.eqb c s) else Ok false) ;;
        if hit then Ok (contract, S jj, kk)
        else contract <- bset contract kk c ;; Ok (contract, jj, S kk).
Lemma sb_loop p contract0 :
  (sq = map chr (filter p (seq 0 o)) \/ (sq = [48%Z] /\ forall m, p m = false)) ->
  length (filter (fun m => negb (p m)) (seq 0 o)) <= length contract0 ->
  exists st, for_ 0 o sb_body (contract0, 0, 0) = Ok st /\ length (fst (fst st)) = length contract0 /\
    forall k, nth_error (fst (fst st)) k =
      if k <? length (filter (fun m => negb (p m)) (seq 0 o)) then Some (Some (chr (nth k (filter (fun m => negb (p m)) (seq 0 o)) 0)))
      else nth_error contract0 k.
Proof.
  intros Hsq Hlen. set (q := fun m => negb (p m)).
  set (A := fun ii => filter p (seq 0 ii)). set (B := fun ii => filter q (seq 0 ii)).
  destruct (for_inv (fun ii st => exists c, st = (c, length (A ii), length (B ii)) /\ length c = length contract0 /\
     forall k, nth_error c k = if k <? length (B ii) then Some (Some (chr (nth k (B ii) 0))) else nth_error contract0 k)
     sb_body 0 o (contract0, 0, 0)) as (st & E & c & -> & Lc & Pc).
  - lia.
  - exists contract0. split; auto.
  - intros ii st Hii (c & -> & Lc & Pc). unfold sb_body at 1. unfold bget. rewrite Hcomp by lia. cbn [bind].
    assert (EA : A (S ii) = A ii ++ (if p ii then [ii] else [])).
    { unfold A. rewrite seq_S, filter_app. cbn. destruct (p ii); auto. }
    assert (EB : B (S ii) = B ii ++ (if p ii then [] else [ii])).
    { unfold B. rewrite seq_S, filter_app. cbn. unfold q. destruct (p ii); auto. }
    assert (Hh : (if length (A ii) <? length sq then s <- str_at sq (length (A ii)) ;; Ok (Z.eqb (chr ii) s) else Ok false) = Ok (p ii)).
    { destruct Hsq as [->|[-> Hp]].
      - rewrite map_length.
        assert (Eo : filter p (seq 0 o) = A ii ++ filter p (seq ii (o - ii))) by (unfold A; rewrite (seq_split ii o) by lia; apply filter_app).
        assert (Es : seq ii (o - ii) = ii :: seq (S ii) (o - S ii)).
        { replace (o - ii) with (S (o - S ii)) by lia. reflexivity. }
        destruct (Nat.ltb_spec (length (A ii)) (length (filter p (seq 0 o)))) as [Hl|Hl].
        + unfold str_at. rewrite map_length. destruct (Nat.ltb_spec (length (A ii)) (length (filter p (seq 0 o)))); [|lia].
          rewrite (lget_ok _ _ 0%Z) by (rewrite map_length; auto). cbn [bind]. f_equal.
          rewrite (nth_map_lt _ _ _ 0) by auto.
          rewrite Eo, app_nth2 by auto. rewrite Nat.sub_diag.
          rewrite Eo, app_length in Hl. rewrite Es in *. cbn [filter] in *. destruct (p ii) eqn:Ep.
          * cbn [nth]. apply Z.eqb_refl.
          * apply Z.eqb_neq. intros E. apply chr_inj in E; [|lia|].
            -- assert (Hin : In (nth 0 (filter p (seq (S ii) (o - S ii))) 0) (filter p (seq (S ii) (o - S ii)))) by (apply nth_In; lia).
               rewrite <- E in Hin. apply filter_In in Hin as [_ Hin]. congruence.
            -- assert (Hin : In (nth 0 (filter p (seq (S ii) (o - S ii))) 0) (filter p (seq (S ii) (o - S ii)))) by (apply nth_In; lia).
               apply filter_In in Hin as [Hin _]. apply in_seq in Hin. lia.
        + rewrite Eo, app_length, Es in Hl. cbn [filter] in Hl. destruct (p ii); auto. cbn [length] in Hl. lia.
      - rewrite Hp. replace (A ii) with (@nil nat).
        2:{ unfold A. rewrite (filter_ext _ (fun _ => false)) by auto. clear. induction (seq 0 ii); auto. }
        cbn [length str_at lget nth_error of_opt bind Nat.ltb Nat.leb]. f_equal. apply Z.eqb_neq. intros E. pose proof (chr_ge ii ltac:(lia)). lia. }
    rewrite Hh. cbn [bind]. destruct (p ii) eqn:Ep.
    + eexists. split; [reflexivity|]. exists c. rewrite EA, EB, app_nil_r, app_length. cbn [length]. split; [repeat f_equal; lia|]. auto.
    + assert (Hk : length (B ii) < length contract0).
      { assert (length (B o) <= length contract0) by exact Hlen.
        assert (length (B (S ii)) <= length (B o)).
        { unfold B. rewrite (seq_split (S ii) o) by lia. rewrite filter_app, app_length. lia. }
        rewrite EB, app_length in H0. cbn in H0. lia. }
      rewrite bset_ok by lia. cbn [bind]. eexists. split; [reflexivity|].
      exists (lset c (length (B ii)) (Some (chr ii))). rewrite EA, EB, app_nil_r, app_length. cbn [length].
      split; [repeat f_equal; lia|]. split; [rewrite lset_length; auto|].
      intros k. rewrite lset_nth_error, Pc, nth_snoc. natcases; auto.
  - exists (c, length (A o), length (B o)). split; auto.
Qed.
End SB.

Lemma cap_ok (s : str) cap : length s + 1 <= cap -> (if length s + 1 <=? cap then Ok s else Err UB) = Ok s.
Proof. intros. destruct (Nat.leb_spec (length s + 1) cap); auto. lia. Qed.
Lemma chr_nz m : m <= 30 -> chr m <> 0%Z.
Proof. intros. rewrite chr_small by auto. lia. Qed.

(** the letters outside ms, then '*' *)
Lemma sb_ok same o ms : o <= 31 -> asc o ms -> ms <> [] ->
  stringbuilder_mttkrp same (map chr ms) o (o + 1) = Ok (sstr (outside ms o)).
Proof.
  intros Ho Ha Hne. unfold stringbuilder_mttkrp. destruct (letters_buf o) as (c & E & L & Pc).
  rewrite E. cbn [bind]. rewrite bset_ok by lia. cbn [bind].
  assert (Hneq : str_eqb (map chr ms) [48%Z] = false).
  { destruct (str_eqb_spec (map chr ms) [48%Z]) as [E0|]; auto. exfalso. destruct ms as [|m ms]; [discriminate|].
    injection E0 as E0 _. pose proof (asc_lt o (m :: ms) m Ha (or_introl eq_refl)). pose proof (chr_ge m ltac:(lia)). lia. }
  rewrite Hneq. cbn [andb]. rewrite map_length.
  destruct Ha as (p & Hp). assert (Hlen := filter_len_compl p (seq 0 o)). rewrite <- Hp, seq_length in Hlen.
  destruct (Nat.ltb_spec (o + 1) (length ms)); [lia|]. rewrite bset_ok by blen. cbn [bind].
  destruct (Nat.ltb_spec o (length ms)); [lia|]. rewrite bset_ok by blen. cbn [bind].
  set (c0 := lset (lset _ _ _) _ _).
  assert (Lc0 : length c0 = o + 2 - length ms) by (unfold c0; blen).
  destruct (sb_loop o Ho (map chr ms) (lset c o (Some 0%Z))) with (p := p) (contract0 := c0) as (st & Es & Ls & Ps).
  - intros k Hk. rewrite lset_nth_error. natcases; auto.
  - left. congruence.
  - lia.
  - unfold sb_body in Es. rewrite map_length in Es. rewrite Es. cbn [bind]. destruct st as [[b jj] kk]. cbn [fst snd] in *.
    assert (Eout : outside ms o = filter (fun m => negb (p m)) (seq 0 o)) by (rewrite Hp; apply outside_filter).
    rewrite <- Eout in *.
    rewrite (holds_cstr b (sstr (outside ms o))).
    + cbn [bind]. apply cap_ok. rewrite sstr_length. destruct ms; [congruence|]. cbn in *. lia.
    + split.
      * intros i Hi. rewrite sstr_length in Hi. rewrite Ps. unfold sstr. rewrite nth_snoc, map_length. natcases.
        -- unfold c0. rewrite !lset_nth_error, lset_length, newbuf_length. natcases; auto.
        -- rewrite (nth_map_lt _ _ _ 0) by auto. auto.
      * rewrite sstr_length, Ps. unfold c0. rewrite !lset_nth_error, lset_length, newbuf_length. natcases; auto.
    + intros x Hx. apply (sstr_nz (outside ms o)); auto. intros m Hm. apply outside_in in Hm. lia.
Qed.
(** the argument "0": all the letters, whichever way the pointer comparison goes *)
Lemma sb_zero same o : 1 <= o <= 31 -> stringbuilder_mttkrp same [48%Z] o (o + 1) = Ok (letters chr o).
Proof.
  intros Ho. unfold stringbuilder_mttkrp. destruct (letters_buf o) as (c & E & L & Pc).
  rewrite E. cbn [bind]. rewrite bset_ok by lia. cbn [bind].
  assert (Hll : length (letters chr o) = o) by (unfold letters; rewrite map_length, seq_length; auto).
  assert (Hnz : forall x, In x (letters chr o) -> x <> 0%Z).
  { intros x Hx. apply in_map_iff in Hx as (m & <- & Hm). apply in_seq in Hm. apply chr_nz. lia. }
  assert (Hlt : forall i, i < o -> nth i (letters chr o) 0%Z = chr i).
  { intros. unfold letters. rewrite (nth_map_lt _ _ _ 0) by (rewrite seq_length; auto). rewrite nth_seq; auto. }
  change (str_eqb [48%Z] [48%Z]) with true. cbn [andb]. destruct same.
  - rewrite (holds_cstr _ (letters chr o)); auto.
    + cbn [bind]. apply cap_ok. lia.
    + split.
      * intros i Hi. rewrite lset_nth_error, Hlt by lia. natcases. apply Pc. lia.
      * rewrite lset_nth_error, L. natcases; auto.
  - cbn [length]. destruct (Nat.ltb_spec (o + 1) 1); [lia|]. rewrite bset_ok by blen. cbn [bind].
    destruct (Nat.ltb_spec o 1); [lia|]. rewrite bset_ok by blen. cbn [bind].
    set (c0 := lset (lset _ _ _) _ _).
    assert (Lc0 : length c0 = o + 1) by (unfold c0; blen).
    assert (Ef : filter (fun _ => true) (seq 0 o) = seq 0 o) by (clear; induction (seq 0 o); cbn; congruence).
    destruct (sb_loop o ltac:(lia) [48%Z] (lset c o (Some 0%Z))) with (p := fun _ : nat => false) (contract0 := c0) as (st & Es & Ls & Ps).
    + intros k Hk. rewrite lset_nth_error. natcases; auto.
    + right. auto.
    + cbn [negb]. rewrite Ef, seq_length. lia.
    + cbn [negb] in Ps. rewrite Ef, seq_length in Ps. unfold sb_body in Es. cbn [length] in Es. rewrite Es. cbn [bind].
      destruct st as [[b jj] kk]. cbn [fst snd] in *.
      rewrite (holds_cstr b (letters chr o)); auto.
      * cbn [bind]. apply cap_ok. lia.
      * split.
        -- intros i Hi. rewrite Ps, Hlt by lia. natcases. rewrite nth_seq by lia. auto.
        -- rewrite Ps, Hll. natcases. unfold c0. rewrite !lset_nth_error, lset_length, newbuf_length. natcases; auto.
Qed.

(** ** the keys: letters without one or two modes *)
Lemma lbuf_nth o i : i < o -> nth_error (lbuf o) i = Some (Some (chr i)).
Proof.
  intros H. unfold lbuf. rewrite nth_error_map, (nth_error_nth_some _ _ 0%Z) by (rewrite app_length, map_length, seq_length; cbn; lia).
  cbn. rewrite nth_app, map_length, seq_length. natcases. rewrite (nth_map_lt _ _ _ 0) by (rewrite seq_length; auto).
  rewrite nth_seq by auto. auto.
Qed.
Lemma nth_error_skipn {A} (l : list A) k i : nth_error (skipn k l) i = nth_error l (k + i).
Proof. revert l. induction k; intros l; cbn; auto. destruct l; auto. destruct i; auto. Qed.
Lemma sub_lbuf o off len : off + len <= o -> sub_buf (lbuf o) off len = Ok (map chr (seq off len)).
Proof.
  intros H. unfold sub_buf. apply take_list with (d:=0%Z). { rewrite map_length, seq_length. auto. }
  intros i Hi. rewrite nth_error_skipn, lbuf_nth by lia. rewrite (nth_map_lt _ _ _ 0) by (rewrite seq_length; auto).
  rewrite nth_seq by auto. auto.
Qed.
Lemma outside1 o i : i < o -> outside [i] o = seq 0 i ++ seq (i + 1) (o - i - 1).
Proof.
  intros H. rewrite outside_one. unfold others.
  rewrite (seq_split i o) by lia. replace (o - i) with (S (o - i - 1)) by lia. cbn [seq].
  rewrite filter_app. cbn [filter]. rewrite Nat.eqb_refl. cbn [negb].
  rewrite (filter_ext_in _ (fun _ => true) (seq 0 i)), (filter_ext_in _ (fun _ => true) (seq (S i) _)).
  - assert (Ef : forall l : list nat, filter (fun _ => true) l = l) by (induction l; cbn; congruence). rewrite !Ef.
    repeat f_equal; lia.
  - intros m Hm. apply in_seq in Hm. natcases; auto.
  - intros m Hm. apply in_seq in Hm. natcases; auto.
Qed.
Lemma outside2 o i j : i < j -> j < o -> outside [i; j] o = seq 0 i ++ seq (i + 1) (j - i - 1) ++ seq (j + 1) (o - j - 1).
Proof.
  intros H Hj.
  assert (E : outside [i; j] o = filter (fun m => negb (Nat.eqb m j)) (outside [i] o)).
  { unfold outside. induction (seq 0 o) as [|a l IHl]; auto. cbn [filter existsb] in IHl |- *. rewrite !orb_false_r.
    destruct (Nat.eqb a i); cbn [orb negb].
    - apply IHl.
    - cbn [filter]. rewrite <- IHl. destruct (Nat.eqb a j); auto. }
  rewrite E, outside1 by lia. rewrite filter_app.
  replace (seq (i + 1) (o - i - 1)) with (seq (i + 1) (j - i - 1) ++ j :: seq (j + 1) (o - j - 1)).
  2:{ replace (o - i - 1) with ((j - i - 1) + S (o - j - 1)) by lia. rewrite seq_app. f_equal. cbn [seq]. f_equal; [lia|]. f_equal; lia. }
  rewrite filter_app. cbn [filter]. rewrite Nat.eqb_refl. cbn [negb].
  assert (Ef : forall l : list nat, ~ In j l -> filter (fun m => negb (Nat.eqb m j)) l = l).
  { induction l as [|a l IH]; intros Hn; auto. cbn. destruct (Nat.eqb_spec a j); cbn.
    - exfalso. apply Hn. left. auto.
    - f_equal. apply IH. intros Hx. apply Hn. right. auto. }
  rewrite !Ef; auto; rewrite in_seq; lia.
Qed.
Lemma except1_ok o i : i < o -> o <= 31 -> seq_except1 o (lbuf o) i = Ok (map chr (outside [i] o)).
Proof.
  intros Hi Ho. unfold seq_except1. destruct (Nat.ltb_spec o 1); [lia|]. rewrite bset_ok by blen. cbn [bind].
  rewrite !sub_lbuf by lia. cbn [bind].
  destruct (strncpy_ok (lset (newbuf o) (o - 1) (Some 0%Z)) 0 (map chr (seq 0 i))) as (b & E & L & Pb).
  { rewrite map_length, seq_length. blen. }
  rewrite E. cbn [bind]. rewrite lset_length, newbuf_length in L.
  destruct (strncpy_ok b i (map chr (seq (i + 1) (o - i - 1)))) as (b2 & E2 & L2 & Pb2).
  { rewrite map_length, seq_length. lia. }
  rewrite E2. cbn [bind]. rewrite outside1 by auto.
  apply holds_cstr.
  - rewrite map_app. split.
    + intros k Hk. rewrite app_length, !map_length, !seq_length in Hk.
      rewrite Pb2, Pb, nth_app, !map_length, !seq_length. natcases; cbn [andb]; rewrite ?Nat.sub_0_r; auto.
    + rewrite app_length, !map_length, !seq_length, Pb2, Pb, !map_length, !seq_length.
      rewrite lset_nth_error, newbuf_length. natcases; cbn [andb]; auto.
  - intros c Hc. apply in_map_iff in Hc as (m & <- & Hm). apply chr_nz. apply in_app_iff in Hm as [Hm|Hm]; apply in_seq in Hm; lia.
Qed.
Lemma except2_ok o i j : i < j -> j < o -> o <= 31 -> seq_except2 o (lbuf o) i j = Ok (map chr (outside [i; j] o)).
Proof.
  intros Hi Hj Ho. unfold seq_except2. destruct (Nat.ltb_spec o 2); [lia|]. rewrite bset_ok by blen. cbn [bind].
  rewrite !sub_lbuf by lia. cbn [bind].
  destruct (strncpy_ok (lset (newbuf (o - 1)) (o - 2) (Some 0%Z)) 0 (map chr (seq 0 i))) as (b & E & L & Pb).
  { rewrite map_length, seq_length. blen. }
  rewrite E. cbn [bind]. rewrite lset_length, newbuf_length in L.
  destruct (strncpy_ok b i (map chr (seq (i + 1) (j - i - 1)))) as (b2 & E2 & L2 & Pb2).
  { rewrite map_length, seq_length. lia. }
  rewrite E2. cbn [bind].
  destruct (strncpy_ok b2 (j - 1) (map chr (seq (j + 1) (o - j - 1)))) as (b3 & E3 & L3 & Pb3).
  { rewrite map_length, seq_length. lia. }
  rewrite E3. cbn [bind]. rewrite outside2 by auto.
  apply holds_cstr.
  - rewrite !map_app. split.
    + intros k Hk. rewrite !app_length, !map_length, !seq_length in Hk.
      rewrite Pb3, Pb2, Pb, !nth_app, !map_length, !seq_length.
      natcases; cbn [andb]; rewrite ?Nat.sub_0_r; auto. do 3 f_equal. lia.
    + rewrite !app_length, !map_length, !seq_length, Pb3, Pb2, Pb, !map_length, !seq_length.
      rewrite lset_nth_error, newbuf_length. natcases; cbn [andb]; auto.
  - intros c Hc. apply in_map_iff in Hc as (m & <- & Hm). apply chr_nz.
    rewrite !in_app_iff in Hm. destruct Hm as [Hm|[Hm|Hm]]; apply in_seq in Hm; lia.
Qed.
Lemma outside_asc o rest : asc o (outside rest o).
Proof. exists (fun m => negb (existsb (Nat.eqb m) rest)). reflexivity. Qed.
Lemma outside_outside o rest : asc o rest -> outside (outside rest o) o = rest.
Proof.
  intros (p & ->). rewrite outside_filter, outside_filter. apply filter_ext. intros. apply negb_involutive.
Qed.
Lemma asc_one o i : i < o -> asc o [i].
Proof.
  intros H. exists (Nat.eqb i). rewrite (seq_split i o) by lia. replace (o - i) with (S (o - i - 1)) by lia. cbn [seq].
  rewrite filter_app. cbn [filter]. rewrite Nat.eqb_refl.
  rewrite (filter_ext_in _ (fun _ => false) (seq 0 i)), (filter_ext_in _ (fun _ => false) (seq (S i) _)).
  - assert (Ef : forall l : list nat, filter (fun _ => false) l = []) by (induction l; cbn; auto). rewrite !Ef. auto.
  - intros m Hm. apply in_seq in Hm. natcases; auto.
  - intros m Hm. apply in_seq in Hm. natcases; auto.
Qed.
Lemma asc_two o i j : i < j -> j < o -> asc o [i; j].
Proof.
  intros H Hj. exists (fun m => Nat.eqb i m || Nat.eqb j m).
  replace (seq 0 o) with (seq 0 i ++ i :: seq (i + 1) (j - i - 1) ++ j :: seq (j + 1) (o - j - 1)).
  2:{ rewrite (seq_split i o) by lia. f_equal. replace (o - i) with (S (o - i - 1)) by lia. cbn [seq]. f_equal.
      replace (o - i - 1) with ((j - i - 1) + S (o - j - 1)) by lia. rewrite seq_app. cbn [seq]. f_equal; [f_equal; lia|].
      f_equal; [lia|]. f_equal; lia. }
  assert (Ef : forall l, (forall m, In m l -> m <> i /\ m <> j) -> filter (fun m => Nat.eqb i m || Nat.eqb j m) l = []).
  { induction l as [|a l IH]; intros Hn; auto. cbn. destruct (Hn a (or_introl eq_refl)). natcases; try congruence. cbn. apply IH.
    intros. apply Hn. right. auto. }
  rewrite filter_app. cbn [filter]. rewrite filter_app. cbn [filter].
  rewrite !Ef by (intros m Hm; apply in_seq in Hm; lia). rewrite !Nat.eqb_refl. cbn [orb app]. rewrite orb_true_r. auto.
Qed.
Lemma outside_length o rest : asc o rest -> length (outside rest o) = o - length rest.
Proof.
  intros (p & ->). rewrite outside_filter. pose proof (filter_len_compl p (seq 0 o)) as H. rewrite seq_length in H. lia.
Qed.

(** ** Build_mttkrp_map *)
Section P.
Context {N : num} (RL : ring_laws N).
Local Open Scope num_scope.
Context (V : tensor N) (R : nat).
Let o := order V.
Hypothesis Ho : (1 <= o <= 31)%nat.
Let d := dV (lens V) ch_star R.

Lemma op_lens_ok rem : (forall m, In m rem -> m < o)%nat ->
  exists b, op_lens V R (sstr rem) = Ok b /\ new_tensor (length (sstr rem)) b = Ok (zeros (map d (sstr rem)) : tensor N).
Proof.
  intros Hr. unfold op_lens.
  destruct (fill_for 0 (length (sstr rem)) (fun ii b => c <- str_at (sstr rem) ii ;;
      if Z.eqb c ch_star then bset b ii R else m <- ix c ;; l <- lget (lens V) m ;; bset b ii l) 0
      (fun i => d (nth i (sstr rem) 0%Z)) (newbuf (length (sstr rem))) (length (sstr rem))) as (b & E & L & Pb).
  - blen.
  - lia.
  - intros j b Hj Hb. unfold str_at. destruct (Nat.ltb_spec j (length (sstr rem))); [|lia].
    rewrite (lget_ok _ _ 0%Z) by lia. cbn [bind]. replace (0 + (j - 0))%nat with j by lia.
    rewrite sstr_length in Hj. unfold sstr. rewrite nth_snoc, map_length.
    destruct (Nat.ltb_spec j (length rem)).
    + rewrite (nth_map_lt _ _ _ 0%nat) by auto. assert (Hm : (nth j rem 0 < o)%nat) by (apply Hr, nth_In; auto).
      destruct (Z.eqb_spec (chr (nth j rem 0%nat)) ch_star) as [Ec|_].
      { exfalso. apply (chr_not_star (nth j rem 0%nat)); auto. lia. }
      rewrite ix_chr by lia. cbn [bind]. rewrite (lget_ok _ _ 0%nat) by auto. cbn [bind]. rewrite (DT_d V R Ho (nth j rem 0%nat) Hm : d _ = _). auto.
    + destruct (Nat.eqb_spec j (length rem)); [|lia]. rewrite Z.eqb_refl. rewrite (DT_rk V R : d ch_star = R). auto.
  - exists b. rewrite E. split; auto. unfold new_tensor.
    rewrite (take_list _ b (map d (sstr rem)) 0%nat).
    + auto.
    + apply map_length.
    + intros i Hi. rewrite Pb. natcases. cbn [andb]. rewrite Nat.sub_0_r. cbn [Nat.add]. rewrite (nth_map_lt _ _ _ 0%Z) by auto. auto.
Qed.

(** an entry of the table: the modes ms contracted *)
Definition ppnode (W : list (tensor N)) (ms : list nat) (T : tensor N) : Prop :=
  rep d T (sstr (outside ms o)) (PMV V R W ms).
Definition pptable (W : list (tensor N)) (mp : smap (tensor N)) : Prop :=
  forall s T, mp s = Some T -> exists ms, asc o ms /\ ms <> [] /\ s = map chr ms /\ ppnode W ms T.

Lemma lit_take (s : str) : take (length s) (lit s) = Ok s.
Proof.
  unfold lit. apply take_list with (d:=0%Z); auto. intros i Hi.
  rewrite nth_error_app1 by (rewrite map_length; auto). rewrite nth_error_map, (nth_error_nth_some _ _ 0%Z) by auto. auto.
Qed.
Lemma lit_take_len (s : str) n : n = length s -> take n (lit s) = Ok s.
Proof. intros ->. apply lit_take. Qed.
Lemma asc_chr_inj ms ms' : asc o ms -> asc o ms' -> map chr ms = map chr ms' -> ms = ms'.
Proof.
  intros H1 H2. apply map_chr_inj_len; apply Forall_forall; intros m Hm;
   [apply (asc_lt _ _ _ H1) in Hm|apply (asc_lt _ _ _ H2) in Hm]; lia.
Qed.

Lemma Build_ok same W : factors_ok V W R -> forall fuel ms mp,
  asc o ms -> (1 <= length ms <= 8)%nat -> (length ms <= fuel)%nat -> pptable W mp ->
  exists mp', Build_mttkrp_map fuel same V W mp (map chr ms) = Ok mp' /\ pptable W mp' /\
    (exists T, mp' (map chr ms) = Some T) /\ (forall s, mp s <> None -> mp' s <> None).
Proof.
  intros HW. induction fuel as [|fuel IH]; intros ms mp Ha Hl Hf Hmp; [lia|].
  cbn [Build_mttkrp_map]. fold o. rewrite map_length.
  destruct (W0_col V R Ho W HW) as (W0 & E0 & EK). rewrite E0. cbn [bind]. rewrite EK.
  assert (Hput : forall (mp0 : smap (tensor N)) T, pptable W mp0 -> (forall s, mp s <> None -> mp0 s <> None) -> ppnode W ms T ->
    pptable W (sput mp0 (map chr ms) T) /\ (exists T', sput mp0 (map chr ms) T (map chr ms) = Some T') /\
    (forall s, mp s <> None -> sput mp0 (map chr ms) T s <> None)).
  { intros mp0 T H1 H2 H3. split; [|split].
    - intros s T' E. unfold sput in E. destruct (str_eqb_spec s (map chr ms)) as [->|].
      + injection E as <-. exists ms. split; auto. split; [destruct ms; [cbn in Hl; lia|discriminate]|auto].
      + apply H1. auto.
    - exists T. apply sput_eq.
    - intros s Hs. unfold sput. destruct (str_eqb s (map chr ms)); [discriminate|auto]. }
  destruct (Nat.eqb_spec (length ms) 1) as [El|El].
  - destruct ms as [|m [|]]; try (cbn in El; lia). assert (Hm : (m < o)%nat) by (apply (asc_lt _ _ _ Ha); left; auto).
    cbn [map]. change [chr m] with (map chr [m]). rewrite sb_ok by (auto; try lia; discriminate). cbn [bind].
    rewrite sb_zero by lia. cbn [bind map]. cbn [str_at length lget nth_error of_opt Nat.ltb Nat.leb bind].
    assert (Hrem : forall x, In x (outside [m] o) -> (x < o)%nat) by (intros x Hx; apply outside_in in Hx; tauto).
    destruct (op_lens_ok (outside [m] o) Hrem) as (b & Eb & Et). rewrite Eb. cbn [bind]. rewrite Et. cbn [bind].
    rewrite ix_chr by lia. cbn [bind]. rewrite (W_get V R Ho W m) by auto. cbn [bind].
    rewrite (assign_b_ok _ _ _ (sstr (outside [m] o)) [(V, letters chr o); (fac W m, [chr m; ch_star])]).
    2:{ apply lit_take_len. unfold order. cbn. apply map_length. }
    2:{ apply tixs2.
        - apply lit_take_len. unfold letters. rewrite map_length, seq_length. auto.
        - apply lit_take_len. rewrite (W_order V R W) by auto. auto. }
    destruct (dstep0 RL V R Ho W (outside [m] o) m (zeros (map d (sstr (outside [m] o))))) as (B & EB & HB); auto.
    { apply outside_nodup. }
    { intros x. rewrite outside_in. cbn. split; intros H; intuition lia. }
    fold o in EB. rewrite EB. cbn [bind]. eexists. split; [reflexivity|]. apply Hput; auto.
  - destruct (Nat.eqb_spec (length ms) 0); [lia|].
    set (ms' := firstn (length ms - 1) ms). assert (Ha' : asc o ms') by (apply asc_firstn; auto).
    assert (Hl' : length ms' = (length ms - 1)%nat) by (unfold ms'; rewrite firstn_length; lia).
    set (m := nth (length ms - 1) ms 0%nat).
    assert (Ems : ms = ms' ++ [m]).
    { unfold ms', m. rewrite <- (firstn_skipn (length ms - 1) ms) at 1. f_equal.
      rewrite (skipn_cons_nth _ _ 0%nat) by lia. replace (S (length ms - 1)) with (length ms) by lia. rewrite skipn_all. auto. }
    assert (Hm : (m < o)%nat) by (apply (asc_lt o ms); auto; rewrite Ems; apply in_or_app; right; left; auto).
    assert (Hmn : ~ In m ms').
    { pose proof (asc_nodup _ _ Ha) as Hnd. rewrite Ems in Hnd. apply NoDup_remove_2 in Hnd. rewrite app_nil_r in Hnd. auto. }
    rewrite firstn_map. fold ms'.
    destruct (strncpy_ok (newbuf 8) 0 (map chr ms')) as (b & Eb & Lb & Pb). { rewrite map_length. cbn. lia. }
    rewrite Eb. cbn [bind]. rewrite newbuf_length in Lb. rewrite bset_ok by lia. cbn [bind].
    rewrite (holds_cstr _ (map chr ms')).
    2:{ split.
        - intros i Hi. rewrite map_length in Hi. rewrite lset_nth_error, Pb, map_length. natcases; cbn [andb]; rewrite Nat.sub_0_r; auto.
        - rewrite map_length, lset_nth_error, Lb. natcases; auto. }
    2:{ intros c Hc. apply in_map_iff in Hc as (x & <- & Hx). apply (asc_lt _ _ _ Ha') in Hx. apply chr_nz. lia. }
    cbn [bind].
    assert (Hrec : exists mp1 T', (match mp (map chr ms') with Some _ => Ok mp
                     | None => Build_mttkrp_map fuel same V W mp (map chr ms') end) = Ok mp1 /\ pptable W mp1 /\
                     mp1 (map chr ms') = Some T' /\ (forall s, mp s <> None -> mp1 s <> None)).
    { destruct (mp (map chr ms')) as [T'|] eqn:Em.
      - exists mp, T'. auto.
      - destruct (IH ms' mp Ha') as (mp1 & E1 & H1 & (T' & H2) & H3); auto; try lia. exists mp1, T'. auto. }
    destruct Hrec as (mp1 & T' & Er & Hmp1 & HT' & Hmono). rewrite Er. cbn [bind].
    assert (Hne : ms <> []) by (intros E; rewrite E in Hl; cbn in Hl; lia).
    assert (Hne' : ms' <> []) by (intros E; rewrite E in Hl'; cbn in Hl'; lia).
    rewrite sb_ok by (try lia; auto). cbn [bind].
    rewrite sb_ok by (try lia; auto). cbn [bind].
    unfold str_at. rewrite map_length. destruct (Nat.ltb_spec (length ms - 1) (length ms)); [|lia].
    rewrite (lget_ok _ _ 0%Z) by (rewrite map_length; lia). cbn [bind]. rewrite (nth_map_lt _ _ _ 0%nat) by lia. fold m.
    assert (Hrem : forall x, In x (outside ms o) -> (x < o)%nat) by (intros x Hx; apply outside_in in Hx; tauto).
    destruct (op_lens_ok (outside ms o) Hrem) as (bb & Ebb & Et). rewrite Ebb. cbn [bind]. rewrite Et. cbn [bind].
    rewrite ix_chr by lia. cbn [bind]. rewrite (W_get V R Ho W m) by auto. cbn [bind].
    destruct (Hmp1 _ _ HT') as (ms2 & Ha2 & _ & E2 & Hnode). apply asc_chr_inj in E2; auto. subst ms2.
    assert (Etg : tget mp1 (map chr ms') = T') by (unfold tget; rewrite HT'; auto). rewrite Etg.
    rewrite (assign_b_ok _ _ _ (sstr (outside ms o)) [(T', sstr (outside ms' o)); (fac W m, [chr m; ch_star])]).
    2:{ apply lit_take_len. unfold order. cbn. apply map_length. }
    2:{ apply tixs2.
        - apply lit_take_len. apply (rep_order _ _ _ _ Hnode).
        - apply lit_take_len. rewrite (W_order V R W) by auto. auto. }
    destruct (dstep RL V R Ho W ms' (outside ms' o) (outside ms o) m T' (zeros (map d (sstr (outside ms o))))) as (B & EB & HB); auto.
    { intros x Hx. apply outside_in in Hx. apply Hx. }
    { intros x Hx. apply (asc_lt _ _ _ Ha'). auto. }
    { apply outside_in. auto. }
    { apply outside_nodup. }
    { intros x. rewrite !outside_in. rewrite Ems, in_app_iff. cbn. split; intros H'; intuition congruence. }
    fold o in EB. rewrite EB. cbn [bind]. eexists. split; [reflexivity|]. apply Hput; auto.
    unfold ppnode. eapply rep_ext; [exact HB|]. intros e _. apply (PM_perm RL d chr ch_star o (DT_inj V Ho)).
    + constructor; auto. apply (asc_nodup _ _ Ha').
    + intros x [<-|Hx]; auto. apply (asc_lt _ _ _ Ha'). auto.
    + rewrite Ems. apply Permutation_cons_append.
Qed.
End P.
