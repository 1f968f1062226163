(** dt_M in rounded arithmetic *)
From Coq Require Import List ZArith Lia Bool Arith Permutation.
From Verif Require Import Base Num NumR Tensor Spec Spec27 MCommon MCP PBase PTensor PSum PMttkrp PKhatri PTree PDT PDTSweep PRnd PRndDT.
Import ListNotations.

Section Two.
Context (rnd : Rdefinitions.R -> Rdefinitions.R) (u : Rdefinitions.R) (RE : rel_err rnd u).
Notation N := (Fl rnd).
Context (d : Z -> nat) (ltr : nat -> Z) (rk : Z) (ord : nat).
Hypothesis ltr_inj : forall i j, (i < ord)%nat -> (j < ord)%nat -> ltr i = ltr j -> i = j.
Hypothesis rk_fresh : forall i, (i < ord)%nat -> ltr i <> rk.
Lemma pm_astep2 (V : tensor N) (W : nat -> tensor N) ms m1 m2 (A : tensor N) s sC (C : tensor N) :
  arep rnd u d A s (kms d ltr ms) (PMr rnd d ltr rk ord V W ms) (PMa rnd d ltr rk ord V W ms) ->
  (m1 < ord)%nat -> (m2 < ord)%nat -> m1 <> m2 -> ~ In m1 ms -> ~ In m2 ms -> (forall m, In m ms -> (m < ord)%nat) ->
  is_mat (W m1) (d (ltr m1)) (d rk) -> is_mat (W m2) (d (ltr m2)) (d rk) ->
  In (ltr m1) s -> In (ltr m2) s ->
  NoDup sC -> (forall c, In c sC <-> (In c s /\ c <> ltr m1 /\ c <> ltr m2) \/ c = rk) ->
  lens C = map d sC ->
  exists B, assign false C sC [prodt [(A, s); (W m1, [ltr m1; rk]); (W m2, [ltr m2; rk])]] = Ok B /\
            arep rnd u d B sC (kms d ltr (m1 :: m2 :: ms)) (PMr rnd d ltr rk ord V W (m1 :: m2 :: ms)) (PMa rnd d ltr rk ord V W (m1 :: m2 :: ms)).
Proof.
  intros HA Hm1 Hm2 Hne Hn1 Hn2 Hms HW1 HW2 Hin1 Hin2 HsC HC HlC.
  assert (F1 := rk_fresh m1 Hm1). assert (F2 := rk_fresh m2 Hm2).
  assert (F3 : ltr m1 <> ltr m2) by (intros E; apply Hne, ltr_inj; auto).
  set (q0 := mkFac rnd A s (kms d ltr ms) (PMr rnd d ltr rk ord V W ms) (PMa rnd d ltr rk ord V W ms)).
  set (q1 := mkFac rnd (W m1) [ltr m1; rk] 0 (fun e => @el Rnum (reals (W m1)) (e (ltr m1)) (e rk)) (fun e => @el Rnum (absols (W m1)) (e (ltr m1)) (e rk))).
  set (q2 := mkFac rnd (W m2) [ltr m2; rk] 0 (fun e => @el Rnum (reals (W m2)) (e (ltr m2)) (e rk)) (fun e => @el Rnum (absols (W m2)) (e (ltr m2)) (e rk))).
  destruct (contract_arep rnd u RE d C sC [q0; q1; q2] [ltr m1; ltr m2]) as (B & E & R).
  - auto.
  - auto.
  - intros q [<-|[<-|[<-|[]]]]; [exact HA| |]; subst q1 q2; cbn [ft fs fk fg fG].
    + destruct HW1 as [H1 H2]. split; [auto|split; [auto|]]. intros e He. apply rel_el.
    + destruct HW2 as [H1 H2]. split; [auto|split; [auto|]]. intros e He. apply rel_el.
  - constructor; [intros [H|[]]; auto|]. constructor; auto. constructor.
  - intros c. simpl. rewrite in_app_iff, HC. simpl. split.
    + intros [<-|[<-|[]]]; split; auto; intros [(_ & H & H')|H]; auto.
    + intros [H H']. destruct (Z.eq_dec (ltr m1) c) as [|Hne1]; auto. destruct (Z.eq_dec (ltr m2) c) as [|Hne2]; auto.
      exfalso. apply H'. destruct H as [H|[H|[H|[H|[H|[]]]]]]; try congruence; [left|right|right]; auto.
  - intros q [<-|[<-|[<-|[]]]]; subst q0 q1 q2; cbn [fg fG]; split; first [apply (@PM_env Rnum)|apply (@el_env Rnum)].
  - exists B. split; [exact E|].
    apply (arep_mono rnd u RE _ _ _ (S (ksum (map (fk rnd) [q0; q1; q2]) + length [q0; q1; q2] + ksum (map d [ltr m1; ltr m2])))).
    { subst q0 q1 q2. unfold kms. cbn [map ksum fold_right fk length]. fold (ksum (map (fun m0 : nat => (d (ltr m0) + 3)%nat) ms)). lia. }
    eapply arep_ext; [exact R|]. intros e He. unfold PMr, PMa. cbn [sumc].
    assert (G : forall (V0 : tensor Rnum) (W0 : nat -> tensor Rnum) (f0 f1 f2 : env -> Num.car Rnum),
       (forall e, f0 e = PM d ltr rk ord V0 W0 ms e) -> (forall e, f1 e = el (W0 m1) (e (ltr m1)) (e rk)) -> (forall e, f2 e = el (W0 m2) (e (ltr m2)) (e rk)) ->
       @bigsum Rnum _ (seq 0 (d (ltr m1))) (fun i => @bigsum Rnum _ (seq 0 (d (ltr m2))) (fun i0 =>
          (f0 (upd (upd e (ltr m1) i) (ltr m2) i0) * (f1 (upd (upd e (ltr m1) i) (ltr m2) i0) * (f2 (upd (upd e (ltr m1) i) (ltr m2) i0) * n1)))%num))
       = PM d ltr rk ord V0 W0 (m1 :: m2 :: ms) e).
    { intros V0 W0 f0 f1 f2 E0 E1 E2.
      rewrite (PM_cons Rnum_ring d ltr rk ord ltr_inj rk_fresh V0 W0 m1 (m2 :: ms)); auto.
      2:{ intros [H|H]; auto. }
      2:{ intros m [<-|H]; auto. }
      apply bigsum_ext. intros i Hi.
      rewrite (PM_cons Rnum_ring d ltr rk ord ltr_inj rk_fresh V0 W0 m2 ms) by auto.
      rewrite <- (bigsum_mul_r Rnum_ring). apply bigsum_ext. intros j Hj. rewrite E0, E1, E2.
      rewrite upd_same. rewrite (upd_other _ (ltr m2) j (ltr m1)) by auto. rewrite upd_same.
      rewrite !upd_other by auto. cbn [nmul n1 Rnum]. rewrite RIneq.Rmult_1_r, Rmult_3. reflexivity. }
    split; apply G; intros; reflexivity.
Qed.
End Two.

Section P.
Context (rnd : Rdefinitions.R -> Rdefinitions.R) (u : Rdefinitions.R) (RE : rel_err rnd u).
Notation N := (Fl rnd).
Context (V : tensor N) (R : nat).
Let o := order V.
Hypothesis Ho : (1 <= o <= 31)%nat.
Let d := dV (lens V) ch_star R.
Context (parent sibling : smap str).
Hypothesis Htree : tree_maps o parent sibling.
Hypothesis Hgood : (o = 4 \/ 6 <= o)%nat.

Lemma fac_map {A B : num} (h : tensor A -> tensor B) (W : list (tensor A)) m : h tnil = tnil -> fac (map h W) m = h (fac W m).
Proof. intros E. unfold fac. rewrite <- E. apply map_nth. Qed.

Lemma fin_within (W : list (tensor N)) i msf B : (i < o)%nat -> Permutation msf (others i o) ->
  Q rnd u V R W B [i] msf -> mttkrp_within u (mode_roundings (lens V) i) V W i R B.
Proof.
  intros Hi Hp (H1 & H2 & H3).
  assert (Ed : d (chr i) = nth i (lens V) 0%nat) by (apply (DT_d rnd V R Ho); auto).
  assert (Er : d ch_star = R) by (apply (DT_rk rnd V R)).
  assert (Hlt : forall m, In m msf -> (m < o)%nat) by (intros m Hm; apply (Permutation_in _ Hp) in Hm; apply others_in in Hm; tauto).
  assert (Hnd : NoDup msf) by (eapply Permutation_NoDup; [symmetry; eauto|apply others_nodup]).
  assert (Ek : kms d chr msf = mode_roundings (lens V) i).
  { unfold kms, mode_roundings. change (length (lens V)) with o. rewrite (ksum_perm _ _ (Permutation_map (fun m => d (chr m) + 3)%nat Hp)).
    unfold ksum. f_equal. apply map_ext_in. intros m Hm. apply others_in in Hm. unfold d. rewrite (DT_d rnd V R Ho) by tauto. auto. }
  split; [split; [|auto]|].
  { rewrite H2. cbn [sstr map app]. fold d. rewrite Ed, Er. reflexivity. }
  intros a r Ha Hr.
  set (e := fun c : Z => if Z.eqb c ch_star then r else a).
  assert (Ee : e (chr i) = a /\ e ch_star = r).
  { unfold e. rewrite Z.eqb_refl. destruct (Z.eqb_spec (chr i) ch_star) as [E|]; [exfalso; revert E; apply (DT_fresh rnd V Ho); auto|auto]. }
  destruct Ee as [E1 E2].
  assert (He : inr d (sstr [i]) e).
  { intros c [<-|[<-|[]]]; [rewrite E1, Ed; auto|rewrite E2, Er; auto]. }
  destruct (H3 e He) as [H _]. cbn [sstr map app] in H. rewrite E1, E2 in H. fold d in H. rewrite Ek in H.
  change (@at_ (Fl rnd) B [a; r]) with (el B a r) in H.
  assert (EM : forall (V0 : tensor Rnum) (h : tensor N -> tensor Rnum), lens V0 = lens V -> h tnil = tnil ->
     PM d chr ch_star (order V) V0 (fun m => h (fac W m)) msf e = el (mttkrp V0 (map h W) i R) a r).
  { intros V0 h El Eh. rewrite (PM_perm Rnum_ring d chr ch_star o (DT_inj rnd V Ho) V0 _ msf (others i o)); auto.
    rewrite (PM_ext d chr ch_star o V0 (fun m => h (fac W m)) (fac (map h W))) by (intros; rewrite fac_map; auto).
    rewrite (PM_mttkrp Rnum_ring d chr ch_star o (DT_inj rnd V Ho) (DT_fresh rnd V Ho) V0 (map h W) i e); auto.
    - rewrite E1, E2. unfold el, mttkrp. rewrite El. rewrite at_tabulate; [reflexivity|]. repeat constructor; auto.
    - rewrite El. apply (DT_letters rnd V R Ho).
    - rewrite E1, Ed. auto. }
  unfold PMr, PMa in H. fold o in EM. fold o in H. rewrite (EM (reals V) reals) in H by reflexivity. rewrite (EM (absols V) absols) in H by reflexivity. exact H.
Qed.

Lemma leaf_facts pa pb sa sb i : tsub 0 (o - 1) i i pa pb sa sb ->
  ((pa <= i <= pb /\ pb < o /\ (exists a b c e, tsub 0 (o - 1) pa pb a b c e)) /\
  ((pb = pa + 1 /\ sa = sb /\ ((i = pa /\ sa = pa + 1) \/ (i = pa + 1 /\ sa = pa))) \/
   (pb = pa + 2 /\ i = pa + 2 /\ sa = pa /\ sb = pa + 1)))%nat.
Proof.
  intros H. pose proof (tsub_bounds _ _ _ _ _ _ _ _ H) as Hb.
  assert (Hd : forall a b, ((a + b) / 2 * 2 <= a + b < (a + b) / 2 * 2 + 2)%nat).
  { intros a b. pose proof (Nat.div_mod (a + b) 2 ltac:(lia)). pose proof (Nat.mod_upper_bound (a + b) 2 ltac:(lia)). lia. }
  specialize (Hd pa pb). split.
  - split; [lia|]. split; [lia|].
    destruct (tsub_up _ _ _ _ _ _ _ _ H) as [Hroot|(_ & Hp)]; auto. exfalso. lia.
  - lia.
Qed.

Lemma Wmat (W : list (tensor N)) m : factors_ok V W R -> (m < o)%nat -> is_mat (fac W m) (d (chr m)) (d ch_star).
Proof. intros (_ & _ & HW) Hm. unfold d. rewrite (DT_d rnd V R Ho) by auto. rewrite (DT_rk rnd V R). apply HW. auto. Qed.

Theorem dt_M_ok (W : list (tensor N)) i fuel (mp : smap (tensor N)) :
  factors_ok V W R -> (i < o)%nat -> (o < fuel)%nat -> valid_at rnd u V R W i mp ->
  exists mp' M, dt_M fuel parent sibling V W mp i = Ok (mp', M) /\ mttkrp_within u (mode_roundings (lens V) i) V W i R M /\ valid_at rnd u V R W i mp' /\
    (forall s T, mp' s = Some T -> mp s = Some T \/ exists x' y', (x' <= i <= y')%nat /\ (y' < o)%nat /\ s = range_str x' y').
Proof.
  intros HW Hi Hfuel Hv.
  destruct (tsub_leaf 0 (o - 1) i) as (pa & pb & sa & sb & Ht); [lia|lia|].
  pose proof (leaf_facts _ _ _ _ _ Ht) as ((Hpi & Hpb & a & b & c & e & Hp) & Hcase).
  destruct Htree as (Htr & Htr'). destruct (Htr _ _ _ _ _ _ Ht) as [Ep Es]. cbn [fst snd] in Ep, Es.
  unfold dt_M. rewrite range_one in Ep, Es. unfold sget. rewrite Ep, Es.
  assert (Hm : exists mp', match mp (range_str pa pb) with
     | Some _ => Ok mp | None => mttkrp_map_DT fuel mp parent sibling V W (range_str pa pb) end = Ok mp' /\
     valid_at rnd u V R W i mp' /\ (exists T, mp' (range_str pa pb) = Some T) /\
     (forall s T, mp' s = Some T -> mp s = Some T \/ exists x' y', (x' <= i <= y')%nat /\ (y' < o)%nat /\ s = range_str x' y')).
  { destruct (mp (range_str pa pb)) as [Tp|] eqn:Epar.
    - exists mp. repeat split; eauto.
    - apply (DT_ok rnd u RE V R Ho parent sibling (conj Htr Htr') Hgood W i pa pb a b c e fuel mp HW Hp); auto. fold o. lia. }
  destruct Hm as (mp' & E1 & Hv' & (T & ET) & Hnew). rewrite E1. cbn [bind].
  rewrite (W_get rnd V R Ho W i) by auto. cbn [bind]. unfold tget. rewrite ET.
  destruct (Hv' pa pb T Hpi Hpb ET) as (ms & Hnd & Hms & HT).
  pose proof (arep_order _ _ _ _ _ _ _ _ HT) as HoT. rewrite sstr_length, seq_length in HoT.
  fold o in Hms.
  assert (Hlet : lens V = map d (letters chr o)) by (apply (DT_letters rnd V R Ho)).
  assert (Hmi : is_mat (fac W i) (d (chr i)) (d ch_star)) by (apply Wmat; auto).
  assert (HlM : lens (zeros [nrow (fac W i); ncol (fac W i)] : tensor N) = map d (sstr [i])).
  { destruct Hmi as [E _]. unfold nrow, ncol. rewrite E. reflexivity. }
  set (Z0 := zeros [nrow (fac W i); ncol (fac W i)]) in *.
  exists mp'. rewrite !range_str_length.
  lazymatch goal with |- exists M, ?X = _ /\ _ =>
    enough (HM : exists M, is_mat M (d (chr i)) (d ch_star) /\ X = Ok (mp', M) /\ mttkrp_within u (mode_roundings (lens V) i) V W i R M) end.
  { destruct HM as (M & _ & E & HM'). exists M. split; [exact E|]. auto. }
  assert (Hfin : forall B msf, Q rnd u V R W B [i] msf -> Permutation msf (others i o) ->
                 is_mat B (d (chr i)) (d ch_star) /\ mttkrp_within u (mode_roundings (lens V) i) V W i R B).
  { intros B msf HB Hperm. split.
    - destruct HB as (H1 & H2 & _). split; auto.
    - apply (fin_within W i msf B); auto. }
  assert (Hmp : forall msf, NoDup msf -> (forall m, In m msf <-> (m < o /\ m <> i)%nat) -> Permutation msf (others i o)).
  { intros msf H1 H2. apply NoDup_Permutation; auto. apply others_nodup. intros x. rewrite H2, others_in. tauto. }
  assert (Ho2 : forall m, (m < o)%nat -> order (fac W m) = 2%nat) by (intros; apply (W_order rnd V R); auto).
  destruct Hcase as [(-> & -> & Hc)|(-> & -> & -> & ->)].
  - replace (sb + 1 - sb)%nat with 1%nat by lia. cbn [Nat.eqb].
    rewrite !(str_at_range rnd V R Ho) by lia. cbn [bind]. rewrite Nat.add_0_r.
    replace (pa + 1 + 1 - pa)%nat with 2%nat in HT by lia. cbn [seq] in HT.
    replace (S pa) with (pa + 1)%nat in HT by lia.
    assert (HP : forall q, (q < o)%nat -> In q [pa; pa + 1]%nat -> q <> i -> exists M, is_mat M (d (chr i)) (d ch_star) /\
        bind (lget W q) (fun Wa => bind (assign_b Z0 (lit [chr i; ch_star])
            [(T, lit [chr pa; chr (pa + 1); ch_star]); (Wa, lit [chr q; ch_star])]) (fun M => Ok (mp', M))) = Ok (mp', M) /\
        mttkrp_within u (mode_roundings (lens V) i) V W i R M).
    { intros q Hq Hqin Hqi. rewrite (W_get rnd V R Ho W q) by auto. cbn [bind].
      rewrite (assign_b_ok _ _ _ (sstr [i]) [(T, sstr [pa; pa + 1]%nat); (fac W q, [chr q; ch_star])]).
      2:{ reflexivity. }
      2:{ apply tixs2; [rewrite HoT; replace (pa + 1 + 1 - pa + 1)%nat with 3%nat by lia; reflexivity|rewrite Ho2 by auto; reflexivity]. }
      destruct (dstep rnd u RE V R Ho W ms [pa; pa + 1]%nat [i] q T Z0) as (B & EB & RB); auto.
      - intros x [<-|[<-|[]]]; fold o; lia.
      - intros x Hx. apply Hms in Hx. tauto.
      - intros Hx. apply Hms in Hx. simpl in Hqin. lia.
      - repeat constructor. auto.
      - intros x. simpl in *. lia.
      - rewrite EB. cbn [bind]. exists B.
        destruct (Hfin B (q :: ms)) as [H1 H2]; auto.
        apply Hmp.
        + constructor; auto. intros Hx. apply Hms in Hx. simpl in Hqin. lia.
        + intros m. simpl in *. rewrite Hms. lia. }
    destruct Hc as [(-> & ->)|(-> & ->)].
    + rewrite Z.eqb_refl. rewrite ix_chr by lia. cbn [bind]. apply HP; simpl; auto; lia.
    + destruct (Z.eqb_spec (chr pa) (chr (pa + 1))) as [Ec|_]; [apply chr_inj in Ec; lia|].
      rewrite ix_chr by lia. cbn [bind]. apply HP; simpl; auto; lia.
  - replace (pa + 1 + 1 - pa)%nat with 2%nat by lia. cbn [Nat.eqb].
    rewrite !(str_at_range rnd V R Ho) by lia. cbn [bind]. rewrite Nat.add_0_r.
    replace (pa + 2 + 1 - pa)%nat with 3%nat in HT by lia. cbn [seq] in HT.
    replace (S pa) with (pa + 1)%nat in HT by lia. replace (S (pa + 1)) with (pa + 2)%nat in HT by lia.
    destruct (Z.eqb_spec (chr pa) (chr (pa + 2))) as [Ec|_]; [apply chr_inj in Ec; lia|].
    rewrite !ix_chr by lia. cbn [bind]. rewrite !(W_get rnd V R Ho W) by (auto; fold o; lia). cbn [bind].
    rewrite (assign_b_ok _ _ _ (sstr [pa + 2]%nat) [(T, sstr [pa; pa + 1; pa + 2]%nat); (fac W pa, [chr pa; ch_star]); (fac W (pa + 1), [chr (pa + 1); ch_star])]).
    2:{ reflexivity. }
    2:{ cbn [tixs]. unfold tix. rewrite HoT, !Ho2 by lia. replace (pa + 2 + 1 - pa + 1)%nat with 4%nat by lia. reflexivity. }
    destruct (pm_astep2 rnd u RE d chr ch_star o (DT_inj rnd V Ho) (DT_fresh rnd V Ho) V (fac W) ms pa (pa + 1)%nat T
       (sstr [pa; pa + 1; pa + 2]%nat) (sstr [pa + 2]%nat) Z0) as (B & EB & RB); auto; try lia.
    + intros Hx. apply Hms in Hx. lia.
    + intros Hx. apply Hms in Hx. lia.
    + intros x Hx. apply Hms in Hx. tauto.
    + apply Wmat; auto. lia.
    + apply Wmat; auto. lia.
    + simpl. auto.
    + simpl. auto.
    + constructor; [|repeat constructor; auto]. intros [Ec|[]]. symmetry in Ec. revert Ec. apply chr_not_star. lia.
    + assert (chr pa <> chr (pa + 2)) by (intros Ec; apply chr_inj in Ec; lia).
      assert (chr (pa + 1) <> chr (pa + 2)) by (intros Ec; apply chr_inj in Ec; lia).
      intros x. simpl. split.
      * intros [<-|[<-|[]]]; auto. left. repeat split; auto.
      * intros [([<-|[<-|[<-|[<-|[]]]]] & H1 & H2)|Hx]; auto; try congruence.
    + rewrite EB. cbn [bind]. exists B.
      destruct (Hfin B (pa :: pa + 1 :: ms)%nat) as [H1 H2]; auto.
      apply Hmp.
      * constructor. { intros [Hx|Hx]; [lia|]. apply Hms in Hx. lia. }
        constructor; auto. intros Hx. apply Hms in Hx. lia.
      * intros m. simpl. rewrite Hms. lia.
Qed.
End P.
