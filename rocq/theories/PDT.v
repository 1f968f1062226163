(** mttkrp_map_DT computes the partial MTTKRP of every node of the dimension tree *)
From Coq Require Import List ZArith Lia Bool Arith Permutation Ring ZifyNat.
From Verif Require Import Base Num Tensor Spec MCommon PBase PTensor PSum PMttkrp PKhatri PTree.
Import ListNotations.
#[local] Ltac Zify.zify_post_hook ::= Z.to_euclidean_division_equations.

(** ** C-string buffers *)
Definition holds (b : buf Z) (s : str) : Prop :=
  (forall i, i < length s -> nth_error b i = Some (Some (nth i s 0%Z))) /\
  nth_error b (length s) = Some (Some 0%Z).
Lemma holds_cstr b s : holds b s -> (forall c, In c s -> c <> 0%Z) -> cstr b = Ok s.
Proof.
  revert b. induction s as [|c s IH]; intros b (H1 & H2) Hz.
  - simpl in H2. destruct b as [|x b]; [discriminate|]. simpl in H2. injection H2 as ->. reflexivity.
  - assert (H0 := H1 0 ltac:(simpl; lia)). destruct b as [|x b]; [discriminate|]. simpl in H0. injection H0 as ->.
    cbn [cstr]. destruct (Z.eqb_spec c 0); [exfalso; apply (Hz c); simpl; auto|].
    rewrite IH; auto.
    + split; [intros i Hi; apply (H1 (S i)); simpl; lia|exact H2].
    + intros. apply Hz. simpl; auto.
Qed.
Lemma holds_len b s : holds b s -> length s < length b.
Proof. intros (_ & H). apply nth_error_Some. rewrite H. discriminate. Qed.
Lemma strncpy_ok dst off src : off + length src <= length dst ->
  exists b, strncpy dst off src = Ok b /\ length b = length dst /\
    forall k, nth_error b k = if (off <=? k) && (k <? off + length src) then Some (Some (nth (k - off) src 0%Z))
                              else nth_error dst k.
Proof.
  revert dst off. induction src as [|c src IH]; intros dst off H; cbn [strncpy length] in *.
  - exists dst. split; auto. split; auto. intros k. natcases; auto.
  - rewrite bset_ok by lia. cbn [bind]. destruct (IH (lset dst off (Some c)) (S off)) as (b & E & Lb & Pb).
    { rewrite lset_length. lia. }
    exists b. split; auto. split; [rewrite Lb, lset_length; auto|]. intros k. rewrite Pb, lset_nth_error.
    destruct (Nat.eqb_spec k off) as [->|].
    + replace (off - off) with 0 by lia. natcases; cbn [andb]; auto.
    + natcases; cbn [andb]; auto. replace (k - off) with (S (k - S off)) by lia. reflexivity.
Qed.
Lemma csc_ok a sa b sb len : sb + len <= length b -> sa + len <= length a ->
  exists a', char_string_copy a sa b sb len = Ok a' /\ length a' = length a /\
    forall k, nth_error a' k = if (sa <=? k) && (k <? sa + len) then Some (Some (nth (sb + (k - sa)) b 0%Z))
                               else nth_error a k.
Proof.
  intros H1 H2. unfold char_string_copy.
  destruct (fill_for 0 len (fun i a => c <- str_at b (sb + i) ;; bset a (sa + i) c) sa
              (fun i => nth (sb + i) b 0%Z) a (length a)) as (a' & E & La & Pa); auto.
  - lia.
  - intros j b1 Hj Hb1. unfold str_at. destruct (Nat.ltb_spec (sb + j) (length b)); [|lia].
    rewrite (lget_ok _ _ 0%Z) by lia. cbn [bind]. rewrite Nat.sub_0_r. auto.
  - exists a'. split; auto. split; auto. intros k. rewrite Pa. rewrite Nat.sub_0_r. cbn [Nat.add]. auto.
Qed.
Lemma holds_take b s n : holds b s -> length s = n -> take n b = Ok s.
Proof. intros (H & _) L. apply take_list with (d:=0%Z); auto. intros i Hi. apply H. lia. Qed.

(** the block  seq[n]=0; strncpy(seq, seq_f, strlen(seq_f)) *)
Lemma seq_copy_block sq of seq_f s : of < length sq -> length s = of -> holds seq_f s -> (forall c, In c s -> c <> 0%Z) ->
  exists b, length b = length sq /\ take of b = Ok s /\
    forall X (k : buf Z -> res X), (q <- bset sq of 0%Z ;; sf <- cstr seq_f ;; q2 <- strncpy q 0 sf ;; k q2) = k b.
Proof.
  intros H1 H2 H3 H4. destruct (strncpy_ok (lset sq of (Some 0%Z)) 0 s) as (b & E & Lb & Pb).
  { rewrite lset_length. lia. }
  exists b. split; [rewrite Lb, lset_length; auto|]. split.
  - apply take_list with (d:=0%Z); auto. intros i Hi. rewrite Pb. natcases. cbn [andb]. rewrite Nat.sub_0_r. auto.
  - intros X k. rewrite bset_ok by auto. cbn [bind]. rewrite (holds_cstr _ _ H3 H4). cbn [bind]. rewrite E. auto.
Qed.

(** the block  seq_f[of-1]=0; seq_f[of-2]='*'; copy par[0..is); copy par[is+j+1..) *)
Lemma seqf_block seq_f of1 of2 par lp is j len :
  length par = lp -> is + j + 1 <= lp -> of1 = lp - j -> of2 = lp - j - 1 -> len = lp - is - j - 1 ->
  lp - j < length seq_f ->
  exists b, length b = length seq_f /\ holds b ((firstn is par ++ skipn (is + j + 1) par) ++ [ch_star]) /\
    forall X (k : buf Z -> res X),
     (s1 <- bset seq_f of1 0%Z ;; s2 <- bset s1 of2 ch_star ;;
      s3 <- char_string_copy s2 0 par 0 is ;; s4 <- char_string_copy s3 is par (is + j + 1) len ;; k s4) = k b.
Proof.
  intros Hlp His -> -> -> Hlen.
  set (s2 := lset (lset seq_f (lp - j) (Some 0%Z)) (lp - j - 1) (Some ch_star)).
  destruct (csc_ok s2 0 par 0 is) as (s3 & E3 & L3 & P3); [lia|subst s2; rewrite !lset_length; lia|].
  destruct (csc_ok s3 is par (is + j + 1) (lp - is - j - 1)) as (s4 & E4 & L4 & P4);
    [lia|rewrite L3; subst s2; rewrite !lset_length; lia|].
  assert (L2 : length s2 = length seq_f) by (subst s2; rewrite !lset_length; auto).
  assert (Lr : length (firstn is par ++ skipn (is + j + 1) par) = lp - j - 1).
  { rewrite app_length, firstn_length, skipn_length. lia. }
  exists s4. split; [congruence|]. split.
  - split.
    + intros i Hi. rewrite app_length, Lr in Hi. simpl in Hi. rewrite P4, P3, nth_snoc, Lr, nth_app, firstn_length.
      rewrite Nat.min_l by lia. subst s2. rewrite !lset_nth_error, !lset_length.
      natcases; cbn [andb]; auto; rewrite ?nth_skipn; rewrite ?nth_firstn by auto; rewrite ?Nat.sub_0_r; auto.
    + rewrite app_length, Lr. simpl. rewrite P4, P3. subst s2. rewrite !lset_nth_error, !lset_length.
      natcases; cbn [andb]; auto.
  - intros X k. rewrite bset_ok by lia. cbn [bind]. rewrite bset_ok by (rewrite lset_length; lia). cbn [bind].
    fold s2. rewrite E3. cbn [bind]. rewrite E4. auto.
Qed.

(** the block  lens_V[0..is) = ls[0..is); lens_V[m-j-1] = ls[m]; lens_V[n-1] = K *)
Lemma lens_block (ls : list nat) is j n n1 n2 hi K :
  n1 = n -> n2 = n - 1 -> is + 1 <= n -> is + j + 1 <= hi -> hi <= length ls -> hi - j - 1 <= n -> n + j <= hi ->
  exists b, take n b = Ok (firstn is ls ++ firstn (n - 1 - is) (skipn (is + j + 1) ls) ++ [K]) /\
    forall X (k : buf nat -> res X),
     (b1 <- for_ 0 is (fun m b => x <- lget ls m ;; bset b m x) (newbuf n1) ;;
      b2 <- for_ (is + j + 1) hi (fun m b => x <- lget ls m ;; bset b (m - j - 1) x) b1 ;;
      b3 <- bset b2 n2 K ;; k b3) = k b.
Proof.
  intros -> -> H1 H2 H3 H4 H5.
  destruct (fill_for 0 is (fun m b => x <- lget ls m ;; bset b m x) 0 (fun m => nth m ls 0) (newbuf n) n)
    as (b1 & E1 & L1 & P1).
  { blen. } { lia. } { intros m b Hm Hb. rewrite (lget_ok _ _ 0) by lia. cbn [bind]. f_equal; lia. }
  destruct (fill_for (is + j + 1) hi (fun m b => x <- lget ls m ;; bset b (m - j - 1) x) is (fun m => nth m ls 0) b1 n)
    as (b2 & E2 & L2 & P2).
  { auto. } { lia. } { intros m b Hm Hb. rewrite (lget_ok _ _ 0) by lia. cbn [bind]. f_equal; lia. }
  exists (lset b2 (n - 1) (Some K)). split.
  - apply take_list with (d:=0).
    + rewrite !app_length, !firstn_length, skipn_length. simpl. lia.
    + intros i Hi. rewrite lset_nth_error, P2, P1.
      rewrite app_assoc, nth_snoc, nth_app, !app_length, !firstn_length, skipn_length.
      rewrite (Nat.min_l is) by lia. rewrite (Nat.min_l (n - 1 - is)) by lia.
      natcases; cbn [andb]; auto; rewrite nth_firstn by lia; rewrite ?nth_skipn; auto.
      do 3 f_equal. lia.
  - intros X k. rewrite E1. cbn [bind]. rewrite E2. cbn [bind]. rewrite bset_ok by lia. auto.
Qed.

(** ** strings of mode lists *)
Definition sstr (ms : list nat) : str := map chr ms ++ [ch_star].
Definition remm (pa lp is j : nat) : list nat := seq pa is ++ seq (pa + is + j) (lp - is - j).
Lemma firstn_seq k a n : k <= n -> firstn k (seq a n) = seq a k.
Proof.
  intros H. replace n with (k + (n - k)) by lia. rewrite seq_app, firstn_app, firstn_all2 by (rewrite seq_length; auto).
  rewrite seq_length, Nat.sub_diag. simpl. apply app_nil_r.
Qed.
Lemma skipn_seq k a n : k <= n -> skipn k (seq a n) = seq (a + k) (n - k).
Proof.
  intros H. replace n with (k + (n - k)) at 1 by lia. rewrite seq_app, skipn_app, skipn_all2 by (rewrite seq_length; auto).
  rewrite seq_length, Nat.sub_diag. reflexivity.
Qed.
Lemma rem_str pa lp is j : is + j <= lp ->
  firstn is (map chr (seq pa lp)) ++ skipn (is + j) (map chr (seq pa lp)) = map chr (remm pa lp is j).
Proof.
  intros H. rewrite firstn_map, skipn_map, firstn_seq, skipn_seq by lia. unfold remm. rewrite map_app.
  do 3 f_equal; lia.
Qed.
Lemma rem_in pa lp is j m : is + j <= lp -> In m (remm pa lp is j) <-> pa <= m < pa + lp /\ ~ (pa + is <= m < pa + is + j).
Proof. intros H. unfold remm. rewrite in_app_iff, !in_seq. lia. Qed.
Lemma rem_nodup pa lp is j : NoDup (remm pa lp is j).
Proof.
  unfold remm. apply NoDup_app_intro; try apply seq_NoDup. intros x Hx Hy. apply in_seq in Hx, Hy. lia.
Qed.
Lemma rem_length pa lp is j : is + j <= lp -> length (remm pa lp is j) = lp - j.
Proof. intros. unfold remm. rewrite app_length, !seq_length. lia. Qed.
Lemma sstr_length ms : length (sstr ms) = length ms + 1.
Proof. unfold sstr. rewrite app_length, map_length. auto. Qed.
Lemma sstr_nz ms : (forall m, In m ms -> m <= 30) -> forall c, In c (sstr ms) -> c <> 0%Z.
Proof.
  intros H c Hc. unfold sstr in Hc. apply in_app_or in Hc as [Hc|[<-|[]]]; [|discriminate].
  apply in_map_iff in Hc as (m & <- & Hm). apply H in Hm. rewrite chr_small by lia. lia.
Qed.

Section P.
Context {N : num} (RL : ring_laws N).
Local Open Scope num_scope.
Context (V : tensor N) (R : nat).
Let o := order V.
Hypothesis Ho : (1 <= o <= 31)%nat.
Let d := dV (lens V) ch_star R.

Lemma DT_letters : lens V = map d (letters chr o).
Proof.
  apply dV_letters; change (length (lens V)) with o; [lia|]. intros. apply chr_not_star. lia.
Qed.
Lemma DT_d m : (m < o)%nat -> d (chr m) = nth m (lens V) 0%nat.
Proof. intros. apply dV_chr; [lia|]. apply chr_not_star. lia. Qed.
Lemma DT_rk : d ch_star = R.
Proof. apply dV_rk. Qed.
Lemma DT_inj i j : (i < o)%nat -> (j < o)%nat -> chr i = chr j -> i = j.
Proof. intros. apply (chr_inj_ord o); auto. lia. Qed.
Lemma DT_fresh i : (i < o)%nat -> chr i <> ch_star.
Proof. intros. apply chr_not_star. lia. Qed.

Definition PMV (W : list (tensor N)) := PM d chr ch_star o V (fac W).

(** one contraction, over lists of modes *)
Lemma dstep W ms rem rem' m A C :
  factors_ok V W R ->
  rep d A (sstr rem) (PMV W ms) ->
  (forall x, In x rem -> x < o)%nat -> (forall x, In x ms -> x < o)%nat ->
  In m rem -> ~ In m ms -> NoDup rem' -> (forall x, In x rem' <-> In x rem /\ x <> m) ->
  lens C = map d (sstr rem') ->
  exists B, assign false C (sstr rem') [prodt [(A, sstr rem); (fac W m, [chr m; ch_star])]] = Ok B /\
            rep d B (sstr rem') (PMV W (m :: ms)).
Proof.
  intros (HwV & HLW & HW) HA Hr Hms Hm Hn Hd Hiff HC.
  assert (Hmo : (m < o)%nat) by auto.
  apply (pm_step RL d chr ch_star o DT_inj DT_fresh V (fac W) ms m A (sstr rem) (sstr rem') C); auto.
  - rewrite DT_d, DT_rk by auto. apply HW. auto.
  - apply in_or_app. left. apply in_map. auto.
  - intros c Hc. apply in_app_or in Hc as [Hc|[<-|[]]]; auto. right.
    apply in_map_iff in Hc as (x & <- & Hx). apply in_map, in_seq. apply Hr in Hx. lia.
  - apply NoDup_app_intro.
    + apply NoDup_map_inj; auto. intros x y Hx Hy. apply Hiff in Hx, Hy. apply DT_inj; apply Hr; tauto.
    + repeat constructor. auto.
    + intros x Hx [<-|[]]. apply in_map_iff in Hx as (y & E & Hy). apply Hiff in Hy. apply (DT_fresh y); auto. apply Hr; tauto.
  - intros c. unfold sstr. rewrite !in_app_iff. split.
    + intros [H|[<-|[]]]; auto. left. apply in_map_iff in H as (x & <- & Hx). apply Hiff in Hx.
      split; [left; apply in_map; tauto|]. intros E. apply DT_inj in E; auto; [tauto|apply Hr; tauto].
    + intros [[[H|[<-|[]]] H2]|H]; [|right; left; auto|right; left; auto].
      left. apply in_map_iff in H as (x & <- & Hx). apply in_map. apply Hiff. split; [auto|]. intros ->. auto.
Qed.
(** the first contraction, from V itself *)
Lemma dstep0 W rem' m C :
  factors_ok V W R -> (m < o)%nat -> NoDup rem' -> (forall x, In x rem' <-> (x < o /\ x <> m)%nat) ->
  lens C = map d (sstr rem') ->
  exists B, assign false C (sstr rem') [prodt [(V, letters chr o); (fac W m, [chr m; ch_star])]] = Ok B /\
            rep d B (sstr rem') (PMV W [m]).
Proof.
  intros (HwV & HLW & HW) Hmo Hd Hiff HC.
  apply (pm_step RL d chr ch_star o DT_inj DT_fresh V (fac W) [] m V (letters chr o) (sstr rem') C); auto.
  - apply rep_start; auto. apply DT_letters.
  - intros x [].
  - rewrite DT_d, DT_rk by auto. apply HW. auto.
  - apply in_map, in_seq. lia.
  - apply NoDup_app_intro.
    + apply NoDup_map_inj; auto. intros x y Hx Hy. apply Hiff in Hx, Hy. apply DT_inj; tauto.
    + repeat constructor. auto.
    + intros x Hx [<-|[]]. apply in_map_iff in Hx as (y & E & Hy). apply Hiff in Hy. apply (DT_fresh y); tauto.
  - intros c. unfold sstr. rewrite in_app_iff. split.
    + intros [H|[<-|[]]]; auto. left. apply in_map_iff in H as (x & <- & Hx). apply Hiff in Hx.
      split; [apply in_map, in_seq; lia|]. intros E. apply DT_inj in E; tauto.
    + intros [[H H2]|H]; [|right; left; auto].
      left. apply in_map_iff in H as (x & <- & Hx). apply in_map. apply Hiff. apply in_seq in Hx.
      split; [lia|]. intros ->. auto.
Qed.

Lemma sstr_lens ms : (forall x, In x ms -> x < o)%nat ->
  map d (sstr ms) = map (fun m => nth m (lens V) 0%nat) ms ++ [R].
Proof.
  intros H. unfold sstr. rewrite map_app, map_map. cbn [map]. rewrite DT_rk. f_equal.
  apply map_ext_in. intros. apply DT_d. auto.
Qed.

(** the meaning of a cached node: the modes outside x..y contracted *)
Definition node (W : list (tensor N)) (x y : nat) (T : tensor N) : Prop :=
  exists ms, NoDup ms /\ (forall m, In m ms <-> (m < o /\ ~ (x <= m <= y))%nat) /\
    rep d T (sstr (seq x (y + 1 - x))) (PMV W ms).

Lemma node_ext W W' x y T : (forall m, (m < o)%nat -> ~ (x <= m <= y)%nat -> fac W m = fac W' m) ->
  node W x y T -> node W' x y T.
Proof.
  intros H (ms & H1 & H2 & H3). exists ms. split; auto. split; auto.
  eapply rep_ext; [exact H3|]. intros e He. apply (PM_ext d chr ch_star o). intros m Hm. apply H2 in Hm. apply H; tauto.
Qed.

Lemma W0_col W : factors_ok V W R -> exists W0 : tensor N, lget W 0 = Ok W0 /\ ncol W0 = R.
Proof.
  intros (_ & HL & HWm). fold o in HL. exists (fac W 0). split; [apply lget_ok; lia|].
  destruct (HWm 0%nat) as [E _]; [fold o; lia|]. unfold ncol. rewrite E. auto.
Qed.
Lemma W_get W m : factors_ok V W R -> (m < o)%nat -> lget W m = Ok (fac W m).
Proof. intros (_ & HL & _) H. apply lget_ok. fold o in HL. lia. Qed.
Lemma W_order W m : factors_ok V W R -> (m < o)%nat -> order (fac W m) = 2%nat.
Proof. intros (_ & _ & HW) H. destruct (HW m H) as [E _]. unfold order. rewrite E. auto. Qed.

Lemma firstn_lens_rem (is j lp : nat) : (is + j < lp)%nat -> (lp <= o)%nat ->
  firstn is (lens V) ++ firstn (lp - j - 1 - is) (skipn (is + j + 1) (lens V)) ++ [R] = map d (sstr (remm 0 lp is (S j))).
Proof.
  intros H1 H2. rewrite sstr_lens.
  2:{ intros x Hx. apply rem_in in Hx; lia. }
  rewrite app_assoc. f_equal. unfold remm. rewrite map_app. cbn [Nat.add].
  assert (HL : length (lens V) = o) by reflexivity.
  f_equal; apply nth_ext with (d:=0%nat) (d':=0%nat); rewrite ?firstn_length, ?skipn_length, ?map_length, ?seq_length; try lia.
  - intros n Hn. rewrite nth_firstn by lia. rewrite (nth_map_lt _ _ _ 0%nat) by (rewrite seq_length; lia).
    rewrite nth_seq by lia. auto.
  - intros n Hn. rewrite nth_firstn by lia. rewrite nth_skipn, (nth_map_lt _ _ _ 0%nat) by (rewrite seq_length; lia).
    rewrite nth_seq by lia. f_equal. lia.
Qed.
Lemma firstn_lens_par pa lp is j (T : tensor N) G : (is + j < lp)%nat -> (pa + lp <= o)%nat ->
  rep d T (sstr (seq pa lp)) G ->
  firstn is (lens T) ++ firstn (lp - j - 1 - is) (skipn (is + j + 1) (lens T)) ++ [R] = map d (sstr (remm pa lp is (S j))).
Proof.
  intros H1 H2 (_ & HL & _). rewrite HL, !sstr_lens.
  2:{ intros x Hx. apply rem_in in Hx; lia. }
  2:{ intros x Hx. apply in_seq in Hx; lia. }
  rewrite app_assoc. f_equal. unfold remm. rewrite map_app.
  rewrite firstn_app, map_length, seq_length. replace (is - lp)%nat with 0%nat by lia. cbn [firstn]. rewrite app_nil_r.
  rewrite firstn_map, firstn_seq by lia. f_equal.
  rewrite skipn_app, map_length, seq_length. replace (is + j + 1 - lp)%nat with 0%nat by lia. cbn [skipn].
  rewrite skipn_map, skipn_seq by lia.
  rewrite firstn_app, map_length, seq_length.
  replace (lp - j - 1 - is - (lp - (is + j + 1)))%nat with 0%nat by lia. cbn [firstn]. rewrite app_nil_r.
  rewrite firstn_all2 by (rewrite map_length, seq_length; lia). f_equal. f_equal; lia.
Qed.

(** loop invariant of both loops *)
Definition dtinv W pa lp is sa j L (ms : list nat) (st : tensor N * buf Z * buf Z * buf Z) : Prop :=
  let '(Vf, sq, seq_f, seq_w) := st in
  rep d Vf (sstr (remm pa lp is j)) (PMV W (rev (seq sa j) ++ ms)) /\
  length sq = L /\ length seq_f = L /\ holds seq_f (sstr (remm pa lp is j)) /\
  exists x, seq_w = [x; Some ch_star; Some 0%Z].

Lemma rep_remm_order (T : tensor N) pa lp is j G : (is + j <= lp)%nat -> rep d T (sstr (remm pa lp is j)) G -> order T = (lp - j + 1)%nat.
Proof. intros H Hr. rewrite (rep_order _ _ _ _ Hr), sstr_length, rem_length by auto. auto. Qed.

(** the contraction of one step, buffers already prepared *)
Lemma step_assign W pa lp is sa j ms Vf bq bf bw :
  factors_ok V W R -> sa = (pa + is)%nat -> (is + j < lp)%nat -> (pa + lp <= o)%nat ->
  (forall m, In m ms -> (m < o /\ ~ (pa <= m < pa + lp))%nat) ->
  rep d Vf (sstr (remm pa lp is j)) (PMV W (rev (seq sa j) ++ ms)) ->
  take (lp - j + 1) bq = Ok (sstr (remm pa lp is j)) ->
  holds bf (sstr (remm pa lp is (S j))) ->
  bw = [Some (chr (sa + j)); Some ch_star; Some 0%Z] ->
  exists B, assign_b (zeros (map d (sstr (remm pa lp is (S j))))) bf [(Vf, bq); (fac W (sa + j), bw)] = Ok B /\
    rep d B (sstr (remm pa lp is (S j))) (PMV W (rev (seq sa (S j)) ++ ms)).
Proof.
  intros HW -> H1 H2 Hms Hr Hq Hf ->.
  rewrite (assign_b_ok _ _ _ (sstr (remm pa lp is (S j)))
     [(Vf, sstr (remm pa lp is j)); (fac W (pa + is + j), [chr (pa + is + j); ch_star])]).
  2:{ apply holds_take; auto. unfold order. cbn. rewrite map_length. auto. }
  2:{ apply tixs2.
      - rewrite (rep_remm_order Vf pa lp is j _ ltac:(lia) Hr). auto.
      - rewrite (W_order W) by (auto; lia). reflexivity. }
  replace (rev (seq (pa + is) (S j)) ++ ms) with ((pa + is + j)%nat :: (rev (seq (pa + is) j) ++ ms)).
  2:{ rewrite seq_S, rev_unit. reflexivity. }
  apply dstep with (ms := rev (seq (pa + is) j) ++ ms); auto.
  - intros x Hx. apply rem_in in Hx; lia.
  - intros x Hx. apply in_app_or in Hx as [Hx|Hx].
    + apply in_rev, in_seq in Hx. lia.
    + apply Hms in Hx. lia.
  - apply rem_in; lia.
  - intros Hx. apply in_app_or in Hx as [Hx|Hx].
    + apply in_rev, in_seq in Hx. lia.
    + apply Hms in Hx. lia.
  - apply rem_nodup.
  - intros x. rewrite !rem_in by lia. lia.
Qed.

Lemma range_seq a b : range_str a b = map chr (seq a (b + 1 - a)).
Proof. reflexivity. Qed.
Lemma str_at_range a b j : (j < b + 1 - a)%nat -> str_at (range_str a b) j = Ok (chr (a + j)).
Proof.
  intros H. unfold str_at. rewrite range_str_length. destruct (Nat.ltb_spec j (b + 1 - a)); [|lia].
  rewrite (lget_ok _ _ 0%Z) by (rewrite range_str_length; auto). f_equal.
  rewrite range_seq, (nth_map_lt _ _ _ 0%nat) by (rewrite seq_length; auto). rewrite nth_seq by auto. auto.
Qed.

Lemma low_step W pa pb sa sb T ms j st :
  factors_ok V W R -> (pa <= sa)%nat -> (sb <= pb)%nat -> (pb < o)%nat -> (sa + j <= sb)%nat ->
  (sb + 1 - sa < pb + 1 - pa)%nat ->
  (forall m, In m ms <-> (m < o /\ ~ (pa <= m <= pb))%nat) ->
  rep d T (sstr (seq pa (pb + 1 - pa))) (PMV W ms) ->
  dtinv W pa (pb + 1 - pa) (sa - pa) sa j (pb + 1 - pa + 2) ms st ->
  exists st', dt_low_step T W R (range_str pa pb) (range_str sa sb) (sa - pa) j st = Ok st' /\
    dtinv W pa (pb + 1 - pa) (sa - pa) sa (S j) (pb + 1 - pa + 2) ms st'.
Proof.
  intros HW H1 H2 H3 H4 H5 Hms HT Hinv. destruct st as [[[Vf sq] seq_f] seq_w].
  destruct Hinv as (Hr & Lq & Lf & Hf & x & ->).
  set (lp := (pb + 1 - pa)%nat) in *. set (is := (sa - pa)%nat) in *.
  assert (Hoj : order Vf = (lp - j + 1)%nat) by (eapply rep_remm_order; [|exact Hr]; lia).
  assert (HoT : order T = (lp + 1)%nat) by (rewrite (rep_order _ _ _ _ HT), sstr_length, seq_length; auto).
  unfold dt_low_step. rewrite Hoj, HoT.
  destruct (seq_copy_block sq (lp - j + 1) seq_f (sstr (remm pa lp is j))) as (bq & Lbq & Tbq & ->).
  { lia. } { rewrite sstr_length, rem_length; lia. } { auto. }
  { apply sstr_nz. intros m Hm. apply rem_in in Hm; lia. }
  rewrite str_at_range by lia. cbn [bind]. rewrite bset_ok by (simpl; lia). cbn [bind lset].
  destruct (seqf_block seq_f (lp - j + 1 - 1) (lp - j + 1 - 2) (range_str pa pb) lp is j (lp + 1 - is - j - 2))
    as (bf & Lbf & Hbf & ->); try lia.
  { apply range_str_length. }
  rewrite range_seq in Hbf. fold lp in Hbf. replace (is + j + 1)%nat with (is + S j)%nat in Hbf by lia.
  rewrite rem_str in Hbf by lia. fold (sstr (remm pa lp is (S j))) in Hbf.
  destruct (lens_block (lens T) is j (lp - j) (lp + 1 - j - 1) (lp + 1 - j - 2) (lp + 1) R) as (bl & Tbl & ->); try lia.
  { unfold order in HoT. lia. }
  rewrite (firstn_lens_par pa lp is j T _ ltac:(lia) ltac:(lia) HT) in Tbl.
  replace (lp + 1 - j - 1)%nat with (lp - j)%nat by lia.
  rewrite (take_zeros _ _ _ Tbl). cbn [bind]. rewrite ix_chr by lia. cbn [bind].
  rewrite (W_get W (sa + j)) by (auto; lia). cbn [bind].
  destruct (step_assign W pa lp is sa j ms Vf bq bf [Some (chr (sa + j)); Some ch_star; Some 0%Z]) as (B & EB & RB); auto; try lia.
  { intros m Hm. apply Hms in Hm. lia. }
  rewrite EB. cbn [bind]. eexists. split; [reflexivity|]. cbn. repeat split; auto; try lia; try apply RB; try apply Hbf.
  eexists; reflexivity.
Qed.

Lemma low_ok W pa pb sa sb x y T :
  factors_ok V W R ->
  (pa <= sa)%nat -> (sa <= sb)%nat -> (sb <= pb)%nat -> (pb < o)%nat -> (pa <= x <= y)%nat -> (y <= pb)%nat ->
  ((sa = y + 1 /\ x = pa /\ sb = pb) \/ (x = sb + 1 /\ sa = pa /\ y = pb))%nat ->
  node W pa pb T ->
  exists B, dt_low T W R (range_str pa pb) (range_str sa sb) = Ok B /\ node W x y B.
Proof.
  intros HW H1 H2 H3 H4 H5 H6 Hcase (ms & Hnd & Hms & HT).
  set (lp := (pb + 1 - pa)%nat) in *. set (is := (sa - pa)%nat) in *.
  assert (HoT : order T = (lp + 1)%nat) by (rewrite (rep_order _ _ _ _ HT), sstr_length, seq_length; auto).
  unfold dt_low. rewrite HoT. rewrite !bset_ok by (blen). cbn [bind].
  rewrite !str_at_range by lia. cbn [bind]. rewrite !Nat.add_0_r, !chr_small by lia.
  replace (97 + Z.of_nat sa - (97 + Z.of_nat pa))%Z with (Z.of_nat is) by lia.
  destruct (Z.ltb_spec (Z.of_nat is) 0); [lia|]. cbn [bind]. rewrite Nat2Z.id.
  rewrite !bset_ok by (blen). cbn [bind].
  destruct (csc_ok (lset (lset (newbuf (lp + 1 + 1)) (lp + 1) (Some 0%Z)) (lp + 1 - 1) (Some ch_star)) 0
              (range_str pa pb) 0 (length (range_str pa pb))) as (bf & Ef & Lf & Pf).
  { lia. } { rewrite range_str_length; fold lp; blen. }
  rewrite Ef. cbn [bind]. rewrite !range_str_length.
  assert (Hrem0 : remm pa lp is 0 = seq pa lp).
  { unfold remm. rewrite <- (firstn_skipn is (seq pa lp)). rewrite firstn_seq, skipn_seq by lia.
    f_equal. f_equal; lia. }
  lazymatch goal with |- exists B, bind (for_ 0 ?n ?body ?st0) _ = _ /\ _ =>
    destruct (for_inv (fun j st => dtinv W pa lp is sa j (lp + 2) ms st) body 0%nat n st0) as (st' & E & Hinv)
  end.
  { lia. }
  { cbn. rewrite Hrem0. repeat split; auto; try apply HT.
    - rewrite newbuf_length. lia.
    - rewrite Lf. blen.
    - intros i Hi. rewrite sstr_length, seq_length in Hi. rewrite Pf, range_str_length. fold lp.
      unfold sstr. rewrite nth_snoc, map_length, seq_length, !lset_nth_error, !lset_length, newbuf_length.
      natcases; cbn [andb]; auto. rewrite range_seq. fold lp. rewrite Nat.sub_0_r. auto.
    - rewrite sstr_length, seq_length, Pf, range_str_length. fold lp.
      rewrite !lset_nth_error, !lset_length, newbuf_length. natcases; cbn [andb]; auto.
    - eexists; reflexivity. }
  { intros j st Hj Hst. apply (low_step W pa pb sa sb T ms j st); auto; lia. }
  rewrite E. cbn [bind]. destruct st' as [[[Vf sq] seq_f] seq_w]. eexists. split; [reflexivity|].
  destruct Hinv as (Hr & _).
  exists (rev (seq sa (sb + 1 - sa)) ++ ms). split; [|split].
  - apply NoDup_app_intro; auto.
    + apply NoDup_rev, seq_NoDup.
    + intros m Hm Hm'. apply in_rev, in_seq in Hm. apply Hms in Hm'. lia.
  - intros m. rewrite in_app_iff, <- in_rev, in_seq, Hms. lia.
  - replace (seq x (y + 1 - x)) with (remm pa lp is (sb + 1 - sa)); auto.
    unfold remm. destruct Hcase as [(Ha & Hb & Hc)|(Ha & Hb & Hc)].
    + replace (lp - is - (sb + 1 - sa))%nat with 0%nat by lia. cbn [seq]. rewrite app_nil_r. f_equal; lia.
    + replace is with 0%nat by lia. cbn [seq app]. f_equal; lia.
Qed.

Lemma top_step W sa sb j st :
  factors_ok V W R -> (sb < o)%nat -> (1 <= j)%nat -> (sa + j <= sb)%nat -> (sb + 1 - sa < o)%nat ->
  dtinv W 0 o sa sa j (o + 1) [] st ->
  exists st', dt_top_step V W R (range_str 0 (o - 1)) (range_str sa sb) sa j st = Ok st' /\
    dtinv W 0 o sa sa (S j) (o + 1) [] st'.
Proof.
  intros HW H3 Hj H4 H5 Hinv. destruct st as [[[Vf sq] seq_f] seq_w].
  destruct Hinv as (Hr & Lq & Lf & Hf & x & ->).
  assert (Hoj : order Vf = (o - j + 1)%nat) by (eapply rep_remm_order; [|exact Hr]; lia).
  unfold dt_top_step. fold o. rewrite Hoj.
  destruct (seq_copy_block sq (o - j + 1) seq_f (sstr (remm 0 o sa j))) as (bq & Lbq & Tbq & ->).
  { lia. } { rewrite sstr_length, rem_length; lia. } { auto. }
  { apply sstr_nz. intros m Hm. apply rem_in in Hm; lia. }
  rewrite str_at_range by lia. cbn [bind]. rewrite bset_ok by (simpl; lia). cbn [bind lset].
  destruct (seqf_block seq_f (o - j + 1 - 1) (o - j + 1 - 2) (range_str 0 (o - 1)) o sa j (o - sa - j - 1))
    as (bf & Lbf & Hbf & ->); try lia.
  { rewrite range_str_length. lia. }
  rewrite range_seq in Hbf. replace (o - 1 + 1 - 0)%nat with o in Hbf by lia.
  replace (sa + j + 1)%nat with (sa + S j)%nat in Hbf by lia.
  rewrite rem_str in Hbf by lia. fold (sstr (remm 0 o sa (S j))) in Hbf.
  destruct (lens_block (lens V) sa j (o - j) (o - j) (o - j - 1) o R) as (bl & Tbl & ->); try lia.
  { auto. }
  rewrite (firstn_lens_rem sa j o ltac:(lia) ltac:(lia)) in Tbl.
  rewrite (take_zeros _ _ _ Tbl). cbn [bind].
  rewrite (W_get W (sa + j)) by (auto; lia). cbn [bind].
  destruct (step_assign W 0 o sa sa j [] Vf bq bf [Some (chr (sa + j)); Some ch_star; Some 0%Z]) as (B & EB & RB); auto; try lia.
  { intros m []. }
  rewrite EB. cbn [bind]. eexists. split; [reflexivity|]. cbn. repeat split; auto; try lia; try apply RB; try apply Hbf.
  eexists; reflexivity.
Qed.

Lemma top_ok W sa sb x y :
  factors_ok V W R ->
  (sa <= sb)%nat -> (sb < o)%nat -> (x <= y)%nat -> (y < o)%nat ->
  ((sa = y + 1 /\ x = 0 /\ sb = o - 1) \/ (x = sb + 1 /\ sa = 0 /\ y = o - 1))%nat ->
  exists B, dt_top V W R (range_str 0 (o - 1)) (range_str sa sb) = Ok B /\ node W x y B.
Proof.
  intros HW H2 H3 H5 H6 Hcase.
  unfold dt_top. fold o. rewrite !bset_ok by (blen). cbn [bind]. rewrite !bset_ok by (blen). cbn [bind].
  assert (Lp : length (range_str 0 (o - 1)) = o) by (rewrite range_str_length; lia).
  assert (Np : forall k, (k < o)%nat -> nth k (range_str 0 (o - 1)) 0%Z = chr k).
  { intros k Hk. rewrite range_seq, (nth_map_lt _ _ _ 0%nat) by (rewrite seq_length; lia).
    rewrite nth_seq by lia. auto. }
  rewrite Lp.
  destruct (csc_ok (lset (newbuf (o + 1)) o (Some 0%Z)) 0 (range_str 0 (o - 1)) 0 o) as (bq & Eq & Lq & Pq); [lia|blen|].
  rewrite Eq. cbn [bind].
  rewrite str_at_range by lia. cbn [bind]. rewrite Nat.add_0_r. cbn [newbuf repeat lset]. rewrite !bset_ok by (simpl; lia). cbn [bind lset].
  rewrite ix_chr by lia. cbn [bind].
  destruct (csc_ok (lset (newbuf (o + 1)) o (Some 0%Z)) 0 (range_str 0 (o - 1)) 0 sa) as (b1 & E1 & L1 & P1); [lia|blen|].
  rewrite E1. cbn [bind].
  destruct (csc_ok b1 sa (range_str 0 (o - 1)) (sa + 1) (o - sa - 1)) as (b2 & E2 & L2 & P2); [lia|rewrite L1; blen|].
  rewrite E2. cbn [bind]. rewrite L1, lset_length, newbuf_length in L2.
  rewrite bset_ok by (rewrite L2; lia). cbn [bind].
  set (bf := lset b2 (o - 1) (Some ch_star)).
  assert (Hbf : holds bf (sstr (remm 0 o sa 1))).
  { split.
    - intros i Hi. rewrite sstr_length, rem_length in Hi by lia. unfold sstr. rewrite nth_snoc, map_length, rem_length by lia.
      subst bf. rewrite lset_nth_error, L2, P2, P1.
      assert (Hn : (i < o - 1)%nat -> nth i (map chr (remm 0 o sa 1)) 0%Z = chr (if (i <? sa)%nat then i else (i + 1)%nat)).
      { intros Hi'. rewrite (nth_map_lt _ _ _ 0%nat) by (rewrite rem_length; lia). f_equal. unfold remm.
        rewrite nth_app, seq_length. natcases; rewrite nth_seq by lia; lia. }
      natcases; cbn [andb]; auto; rewrite Hn by lia; rewrite Np by lia; do 3 f_equal; natcases; lia.
    - rewrite sstr_length, rem_length by lia. subst bf. rewrite lset_nth_error, P2, P1, lset_nth_error, newbuf_length.
      natcases; cbn [andb]; auto. }
  destruct (fill_for 0 sa (fun m b => x <- lget (lens V) m ;; bset b m x) 0 (fun m => nth m (lens V) 0%nat) (newbuf o) o)
    as (c1 & F1 & M1 & Q1).
  { blen. } { lia. } { intros m b Hm Hb. rewrite (lget_ok _ _ 0%nat) by (fold (order V); fold o; lia). cbn [bind]. f_equal; lia. }
  rewrite F1. cbn [bind].
  destruct (fill_for (sa + 1) o (fun m b => x <- lget (lens V) m ;; bset b (m - 1) x) sa (fun m => nth m (lens V) 0%nat) c1 o)
    as (c2 & F2 & M2 & Q2).
  { auto. } { lia. } { intros m b Hm Hb. rewrite (lget_ok _ _ 0%nat) by (fold (order V); fold o; lia). cbn [bind]. f_equal; lia. }
  rewrite F2. cbn [bind]. rewrite bset_ok by lia. cbn [bind].
  rewrite (take_zeros _ _ (map d (sstr (remm 0 o sa 1)))).
  2:{ rewrite sstr_lens by (intros m Hm; apply rem_in in Hm; lia). apply take_list with (d:=0%nat).
      - rewrite app_length, map_length, rem_length by lia. simpl. lia.
      - intros i Hi. rewrite nth_snoc, map_length, rem_length, lset_nth_error, M2, Q2, Q1 by lia.
        assert (Hn : (i < o - 1)%nat -> nth i (map (fun m => nth m (lens V) 0%nat) (remm 0 o sa 1)) 0%nat = nth (if (i <? sa)%nat then i else (i + 1)%nat) (lens V) 0%nat).
        { intros Hi'. rewrite (nth_map_lt _ _ _ 0%nat) by (rewrite rem_length; lia). f_equal. unfold remm.
          rewrite nth_app, seq_length. natcases; rewrite nth_seq by lia; lia. }
        natcases; cbn [andb]; auto; rewrite Hn by lia; natcases; do 3 f_equal; lia. }
  cbn [bind]. rewrite (W_get W sa) by (auto; lia). cbn [bind].
  rewrite (assign_b_ok _ _ _ (sstr (remm 0 o sa 1)) [(V, letters chr o); (fac W sa, [chr sa; ch_star])]).
  2:{ apply holds_take; auto. unfold order. cbn. rewrite map_length. auto. }
  2:{ apply tixs2.
      - fold o. apply take_list with (d:=0%Z); [unfold letters; rewrite map_length, seq_length; auto|].
        intros i Hi. rewrite Pq. natcases. cbn [andb]. rewrite Np by lia. unfold letters.
        rewrite (nth_map_lt _ _ _ 0%nat) by (rewrite seq_length; auto). rewrite nth_seq by auto. do 3 f_equal. lia.
      - rewrite (W_order W) by (auto; lia). reflexivity. }
  destruct (dstep0 W (remm 0 o sa 1) sa (zeros (map d (sstr (remm 0 o sa 1))))) as (V1 & EV1 & RV1); auto.
  { lia. } { apply rem_nodup. } { intros m. rewrite rem_in by lia. lia. }
  rewrite EV1. cbn [bind]. rewrite !range_str_length.
  lazymatch goal with |- exists B, bind (for_ 1 ?n ?body ?st0) _ = _ /\ _ =>
    destruct (for_inv (fun j st => dtinv W 0 o sa sa j (o + 1) [] st) body 1%nat n st0) as (st' & E & Hinv)
  end.
  { lia. }
  { cbn [dtinv seq rev app]. repeat split; auto; try apply RV1; try apply Hbf.
    - rewrite Lq. blen.
    - subst bf. rewrite lset_length. auto.
    - eexists; reflexivity. }
  { intros j st Hj Hst. apply (top_step W sa sb j st); auto; lia. }
  rewrite E. cbn [bind]. destruct st' as [[[Vf sq] seq_f] seq_w]. eexists. split; [reflexivity|].
  destruct Hinv as (Hr & _). rewrite app_nil_r in Hr.
  exists (rev (seq sa (sb + 1 - sa))). split; [|split].
  - apply NoDup_rev, seq_NoDup.
  - intros m. rewrite <- in_rev, in_seq. lia.
  - replace (seq x (y + 1 - x)) with (remm 0 o sa (sb + 1 - sa)); auto.
    unfold remm. destruct Hcase as [(Ha & Hb & Hc)|(Ha & Hb & Hc)].
    + replace (o - sa - (sb + 1 - sa))%nat with 0%nat by lia. cbn [seq]. rewrite app_nil_r. f_equal; lia.
    + replace sa with 0%nat by lia. cbn [seq app]. f_equal; lia.
Qed.

(** ** the recursion *)
Context (parent sibling : smap str).
Hypothesis Htree : tree_maps o parent sibling.
Hypothesis Hgood : (o = 4 \/ 6 <= o)%nat.

(** cached nodes that contain mode i are valid for W *)
Definition valid_at (W : list (tensor N)) (i : nat) (mp : smap (tensor N)) : Prop :=
  forall x y T, (x <= i <= y)%nat -> (y < o)%nat -> mp (range_str x y) = Some T -> node W x y T.

Lemma top_iff x y pa pb sa sb : tsub 0 (o - 1) x y pa pb sa sb ->
  (y + 1 - x = o / 2 \/ y + 1 - x = o / 2 + 1)%nat <-> (pa = 0 /\ pb = o - 1)%nat.
Proof.
  intros H. pose proof (tsub_bounds _ _ _ _ _ _ _ _ H). pose proof (tsub_up _ _ _ _ _ _ _ _ H) as [Hu|(Hu & a & b & c & e & Hs)].
  - split; [tauto|]. lia.
  - pose proof (tsub_bounds _ _ _ _ _ _ _ _ Hs). split; lia.
Qed.

Lemma node_facts x y pa pb sa sb : tsub 0 (o - 1) x y pa pb sa sb ->
  ((x <= y /\ y <= pb /\ y < o /\ pb < o /\ pa <= x /\ pa <= sa /\ sa <= sb /\ sb <= pb /\ sb < o) /\
  ((sa = y + 1 /\ x = pa /\ sb = pb) \/ (x = sb + 1 /\ sa = pa /\ y = pb)))%nat.
Proof. intros H. apply tsub_bounds in H. lia. Qed.
Lemma node_up x y pa pb sa sb : tsub 0 (o - 1) x y pa pb sa sb ->
  (y + 1 - x <> o / 2)%nat -> (y + 1 - x <> o / 2 + 1)%nat -> exists a b c e, tsub 0 (o - 1) pa pb a b c e.
Proof.
  intros H H1 H2. destruct (tsub_up _ _ _ _ _ _ _ _ H) as [Hroot|(_ & Hp)]; auto.
  apply (top_iff _ _ _ _ _ _ H) in Hroot. destruct Hroot; contradiction.
Qed.
Lemma node_fuel x y pa pb sa sb fuel : tsub 0 (o - 1) x y pa pb sa sb ->
  (o - (y + 1 - x) < S fuel)%nat -> (o - (pb + 1 - pa) < fuel)%nat.
Proof. intros H Hf. apply tsub_bounds in H. lia. Qed.

Theorem DT_ok W i x y pa pb sa sb fuel mp :
  factors_ok V W R -> tsub 0 (o - 1) x y pa pb sa sb -> (x <= i <= y)%nat ->
  (o - (y + 1 - x) < fuel)%nat -> valid_at W i mp ->
  exists mp', mttkrp_map_DT fuel mp parent sibling V W (range_str x y) = Ok mp' /\ valid_at W i mp' /\
    (exists T, mp' (range_str x y) = Some T) /\
    (forall s T, mp' s = Some T -> mp s = Some T \/ exists x' y', (x' <= i <= y')%nat /\ (y' < o)%nat /\ s = range_str x' y').
Proof.
  intros HW. revert x y pa pb sa sb mp. induction fuel as [|fuel IH]; intros x y pa pb sa sb mp Ht Hi Hfuel Hv; [lia|].
  cbn [mttkrp_map_DT]. destruct (W0_col W HW) as (W0 & -> & EK). cbn [bind]. rewrite EK.
  destruct (mp (range_str x y)) as [T0|] eqn:Emp.
  { exists mp. split; auto. split; auto. split; [eauto|]. auto. }
  destruct Htree as (Htr & _). destruct (Htr _ _ _ _ _ _ Ht) as [Ep Es]. cbn [fst snd] in Ep, Es.
  unfold sget. rewrite Ep, Es. rewrite range_str_length. fold o.
  pose proof (node_facts _ _ _ _ _ _ Ht) as ((f1 & f2 & f3 & f4 & f5 & f6 & f7 & f8 & f9) & Hcase).
  assert (Hi' : (x <= i <= y)%nat) by auto. assert (Hpi : (pa <= i <= pb)%nat) by (clear - Hi f2 f5; lia).
  assert (HyB : (y <= 30)%nat) by (clear - f3 Ho; lia).
  assert (Hput : forall mp0 B, valid_at W i mp0 -> node W x y B -> valid_at W i (sput mp0 (range_str x y) B)).
  { intros mp0 B Hv0 HB x' y' T' Hx' Hy' E'. unfold sput in E'.
    destruct (str_eqb_spec (range_str x' y') (range_str x y)) as [Eq|Ne]; [|eapply Hv0; eauto].
    injection E' as <-. apply range_str_inj in Eq as [-> ->]; auto; clear - Ho Hx' Hy'; lia. }
  destruct (Nat.eqb_spec (y + 1 - x) (o / 2)) as [e1|e1]; [|destruct (Nat.eqb_spec (y + 1 - x) (o / 2 + 1)) as [e2|e2]]; cbn [orb].
  - destruct (proj1 (top_iff _ _ _ _ _ _ Ht) (or_introl e1)) as [-> ->].
    destruct (top_ok W sa sb x y HW) as (B & EB & NB); auto.
    rewrite EB. cbn [bind]. eexists. split; [reflexivity|]. split; [auto|]. split.
    + exists B. apply sput_eq.
    + intros s T E'. unfold sput in E'. destruct (str_eqb_spec s (range_str x y)); auto. right. exists x, y. auto.
  - destruct (proj1 (top_iff _ _ _ _ _ _ Ht) (or_intror e2)) as [-> ->].
    destruct (top_ok W sa sb x y HW) as (B & EB & NB); auto.
    rewrite EB. cbn [bind]. eexists. split; [reflexivity|]. split; [auto|]. split.
    + exists B. apply sput_eq.
    + intros s T E'. unfold sput in E'. destruct (str_eqb_spec s (range_str x y)); auto. right. exists x, y. auto.
  - destruct (node_up _ _ _ _ _ _ Ht e1 e2) as (a & b & c & e & Hp).
    assert (Hpar : exists mp1, match mp (range_str pa pb) with Some _ => Ok mp
                     | None => mttkrp_map_DT fuel mp parent sibling V W (range_str pa pb) end = Ok mp1 /\
              valid_at W i mp1 /\ (exists T, mp1 (range_str pa pb) = Some T) /\
              (forall s T, mp1 s = Some T -> mp s = Some T \/ exists x' y', (x' <= i <= y')%nat /\ (y' < o)%nat /\ s = range_str x' y')).
    { destruct (mp (range_str pa pb)) as [Tp|] eqn:Epar.
      - exists mp. repeat split; eauto.
      - apply (IH pa pb a b c e mp Hp); auto. eapply node_fuel; eauto. }
    destruct Hpar as (mp1 & E1 & Hv1 & (Tp & ETp) & Hnew). rewrite E1. cbn [bind]. rewrite ETp. cbn [of_opt bind].
    destruct (low_ok W pa pb sa sb x y Tp HW) as (B & EB & NB); auto.
    rewrite EB. cbn [bind]. eexists. split; [reflexivity|]. split; [auto|]. split.
    + exists B. apply sput_eq.
    + intros s T E'. unfold sput in E'. destruct (str_eqb_spec s (range_str x y)); auto. right. exists x, y. auto.
Qed.
End P.
