(** build_V in rounded arithmetic: the walk of PBuildV.v, with approximate contents *)
From Coq Require Import List ZArith Lia Bool Arith Permutation.
From Verif Require Import Base Num NumR Tensor Spec Spec27 MCommon PBase PTensor PSum PMttkrp PMat PKhatri PResid PBuildV PRnd PRndDT2.
Import ListNotations.

Section P.
Context (rnd : Rdefinitions.R -> Rdefinitions.R) (u : Rdefinitions.R) (RE : rel_err rnd u).
Notation N := (Fl rnd).
Context (W : list (tensor N)) (R o : nat).
Hypothesis Ho : 2 <= o.
Hypothesis HLW : length W = o.
Hypothesis HW : forall m, m < o -> exists r, is_mat (fac W m) r R.

Definition dB (c : Z) : nat :=
  if Z.eqb c ch_star then R else if Z.eqb c 0 then nrow (fac W 18) else nrow (fac W (Z.to_nat (c - 105))).
Lemma dB_star : dB ch_star = R.
Proof. reflexivity. Qed.
Lemma dB_cl m : m < 19 -> dB (cl m) = nrow (fac W m).
Proof.
  intros Hm. unfold dB. pose proof (cl_star m). destruct (Z.eqb_spec (cl m) ch_star); [exfalso; apply H; [lia|auto]|].
  rewrite cl_val by lia. destruct (Nat.ltb_spec m 18).
  - destruct (Z.eqb_spec (105 + Z.of_nat m) 0); [lia|]. do 2 f_equal. lia.
  - assert (m = 18) by lia. subst. reflexivity.
Qed.
Lemma W_mat m : m < o -> m < 19 -> is_mat (fac W m) (dB (cl m)) R.
Proof. intros Hm Hm'. rewrite dB_cl by auto. destruct (HW m Hm) as [r Hr]. rewrite (is_mat_nrow _ _ _ Hr). auto. Qed.

(** the product of the first i factors, exact and in absolute values *)
Definition PW (h : tensor N -> tensor Rnum) (i : nat) (e : env) : Num.car Rnum := @bigprod Rnum _ (seq 0 i) (fun m => @el Rnum (h (fac W m)) (e (cl m)) (e ch_star)).
Lemma PW_env h i : @envext Rnum (PW h i).
Proof. intros e e' H. apply bigprod_ext. intros. rewrite !H. auto. Qed.
Lemma PW_S h i e : PW h (S i) e = (PW h i e * @el Rnum (h (fac W i)) (e (cl i)) (e ch_star))%num.
Proof. unfold PW. rewrite seq_S, (bigprod_app Rnum_ring). cbn [Nat.add bigprod fold_right]. cbn [nmul n1 Rnum]. rewrite RIneq.Rmult_1_r. reflexivity. Qed.
Definition cls i := map cl (seq 0 i).
Lemma cls_len i : length (cls i) = i.
Proof. unfold cls. rewrite map_length, seq_length. auto. Qed.
Lemma cls_nth i j d : j < i -> nth j (cls i) d = cl j.
Proof. intros. unfold cls. rewrite (nth_map_lt _ _ _ 0%nat) by (rewrite seq_length; auto). rewrite nth_seq; auto. Qed.
Lemma cls_nodup i : i <= 19 -> NoDup (cls i).
Proof. intros H. apply NoDup_map_inj; [|apply seq_NoDup]. intros x y Hx Hy. apply in_seq in Hx, Hy. apply cl_inj; lia. Qed.
Lemma cls_star i : i <= 19 -> ~ In ch_star (cls i).
Proof. intros H Hin. apply in_map_iff in Hin as (m & E & Hm). apply in_seq in Hm. apply (cl_star m); auto. lia. Qed.
Lemma clss_nodup i : i <= 19 -> NoDup (cls i ++ [ch_star]).
Proof.
  intros. apply NoDup_app_intro; [apply cls_nodup; auto|repeat constructor; auto|].
  intros x Hx [<-|[]]. apply (cls_star i); auto.
Qed.
Lemma cls_S i : cls (S i) = cls i ++ [cl i].
Proof. unfold cls. rewrite seq_S, map_app. reflexivity. Qed.

Lemma build_loop hi : 1 <= hi <= 19 -> hi <= o - 1 ->
  exists st, for_ 1 hi (build_V_step W R) (fac W 0, lit [ch_i; ch_star]) = Ok st /\
    arep rnd u dB (fst st) (cls hi ++ [ch_star]) (3 * (hi - 1)) (PW reals hi) (PW absols hi) /\ exists x, snd st = [x; Some ch_star; Some 0%Z].
Proof.
  intros Hhi Hhio.
  assert (HWg : forall k, k < o -> lget W k = Ok (fac W k)) by (intros; apply lget_ok; lia).
  apply (for_inv (fun i (st : tensor N * buf Z) =>
       arep rnd u dB (fst st) (cls i ++ [ch_star]) (3 * (i - 1)) (PW reals i) (PW absols i)
       /\ exists x, snd st = [x; Some ch_star; Some 0%Z])).
  - lia.
  - cbn [fst snd]. split; [|eexists; reflexivity].
    destruct (W_mat 0%nat) as [E1 E2]; [lia|lia|]. split; [auto|split].
    + rewrite E1. reflexivity.
    + intros e He. unfold PW. cbn [seq bigprod fold_right]. cbn [nmul n1 Rnum]. rewrite !RIneq.Rmult_1_r. apply rel_el.
  - intros i [V sw] Hi [Hr [x Hx]]. cbn [fst snd] in Hr, Hx. subst sw.
    unfold build_V_step.
    fillwith 0%nat (fun j => nrow (fac W j)) (i + 2)%nat Ll Pl.
    { intros j b Hj Hb. rewrite HWg by lia. cbn [bind]. f_equal; lia. }
    bsets.
    rewrite (take_zeros _ _ (map dB (cls (i + 1) ++ [ch_star]))).
    2:{ apply take_list with (d:=0%nat); [rewrite map_length, app_length, cls_len; simpl; lia|].
        intros j Hj. rewrite lset_nth_error, Pl, Ll.
        rewrite (nth_map_lt _ _ _ 0%Z) by (rewrite app_length, cls_len; simpl; lia).
        rewrite nth_snoc, cls_len. natcases; simpl; auto.
        rewrite cls_nth, dB_cl by lia. do 4 f_equal. lia. }
    cbn [bind]. bsets.
    fillwith 0%nat cl (i + 3)%nat Ltt Pt.
    { intros j b' Hj Hb'. rewrite bget_chars by lia. cbn [bind]. f_equal; lia. }
    bsets.
    fillwith 0%nat cl (i + 2)%nat Lq Pq.
    { intros j b' Hj Hb'. rewrite bget_chars by lia. cbn [bind]. f_equal; lia. }
    rewrite bget_chars by lia. cbn [bind]. rewrite bset_ok by (simpl; lia). cbn [bind lset].
    rewrite HWg by lia. cbn [bind].
    rewrite (assign_b_ok _ _ _ (cls (i + 1) ++ [ch_star]) [(V, cls i ++ [ch_star]); (fac W i, [cl i; ch_star])]).
    2:{ unfold order. cbn [zeros tabulate lens]. rewrite map_length. apply take_list with (d:=0%Z); auto.
        rewrite app_length, cls_len. simpl length. intros j Hj.
        rewrite Pt, !lset_nth_error, nth_snoc, cls_len, lset_length, newbuf_length.
        natcases; cbn [andb]; auto. rewrite cls_nth by lia. do 3 f_equal. lia. }
    2:{ apply tixs2.
        - rewrite (arep_order rnd u dB _ _ _ _ _ Hr). apply take_list with (d:=0%Z); auto.
          rewrite app_length, cls_len. simpl length. intros j Hj.
          rewrite Pq, !lset_nth_error, nth_snoc, cls_len, lset_length, newbuf_length.
          natcases; cbn [andb]; auto. rewrite cls_nth by lia. do 3 f_equal. lia.
        - destruct (W_mat i) as [E1 _]; [lia|lia|]. unfold order. rewrite E1. reflexivity. }
    set (q1 := mkFac rnd V (cls i ++ [ch_star]) (3 * (i - 1)) (PW reals i) (PW absols i)). set (q2 := mkFac rnd (fac W i) [cl i; ch_star] 0 (fun e : env => @el Rnum (reals (fac W i)) (e (cl i)) (e ch_star)) (fun e : env => @el Rnum (absols (fac W i)) (e (cl i)) (e ch_star))).
    destruct (contract_arep rnd u RE dB (zeros (map dB (cls (i + 1) ++ [ch_star]))) (cls (i + 1) ++ [ch_star]) [q1; q2] []) as (B & EB & RB).
    + apply clss_nodup. lia.
    + reflexivity.
    + intros q [<-|[<-|[]]]; [exact Hr|]. subst q2. cbn [ft fs fk fg fG]. destruct (W_mat i) as [E1 E2]; [lia|lia|]. split; [auto|].
      split; [rewrite E1; cbn [map]; rewrite dB_star; reflexivity|]. intros e He. apply rel_el.
    + constructor.
    + intros c. split; [intros []|]. intros [H1 H2]. apply H2. cbn in H1.
      rewrite Nat.add_1_r, cls_S. rewrite !in_app_iff in *. simpl in *. intuition.
    + intros q [<-|[<-|[]]]; subst q1 q2; cbn [fg fG]; split; first [apply PW_env|apply (@el_env Rnum)].
    + subst q1 q2. unfold fpair in EB; cbn [map ft fs] in EB; rewrite EB. cbn [bind]. eexists; split; [reflexivity|]. cbn [fst snd].
      split; [|eexists; reflexivity]. rewrite Nat.add_1_r in RB.
      cbn [map fk ksum fold_right length] in RB. apply (arep_mono rnd u RE _ _ _ _ (3 * (S i - 1))) in RB; [|lia].
      eapply arep_ext; [exact RB|].
      intros e He. rewrite !PW_S. cbn [sumc bigprod fold_right fg fG]. cbn [nmul n1 Rnum]. rewrite !RIneq.Rmult_1_r. split; reflexivity.
Qed.

Theorem build_V_rounded : o <= 19 -> exists B, build_V W o = Ok B /\ wf B /\ lens B = map nrow W /\
  forall x, inb (map nrow W) x -> rel u (3 * (o - 1) + R) (at_ B x) (@cp_at Rnum (map reals W) R x) (@cp_at Rnum (map absols W) R x).
Proof.
  intros Ho'. unfold build_V.
  assert (HWg : forall k, k < o -> lget W k = Ok (fac W k)) by (intros; apply lget_ok; lia).
  rewrite HWg by lia. cbn [bind].
  assert (ncol (fac W 0) = R) as -> by (destruct (HW 0%nat) as [r Hr]; [lia|]; apply (is_mat_ncol _ _ _ Hr)).
  destruct (build_loop (o - 1)) as ([V sw] & E & (Hrep & [x Hx])); [lia|lia|].
  { rewrite E. cbn [bind fst snd] in *. subst sw.
    fillwith 0%nat (fun j => nrow (fac W j)) o Ll Pl.
    { intros j b Hj Hb. rewrite HWg by lia. cbn [bind]. f_equal; lia. }
    rewrite (take_zeros _ _ (map dB (cls o))).
    2:{ apply take_list with (d:=0%nat); [rewrite map_length, cls_len; auto|].
        intros j Hj. rewrite Pl. rewrite (nth_map_lt _ _ _ 0%Z) by (rewrite cls_len; auto).
        rewrite cls_nth, dB_cl by lia. natcases; simpl. do 4 f_equal. lia. }
    cbn [bind]. bsets.
    lazymatch goal with |- exists B, bind (for_ 0 o ?body ?st0) _ = _ /\ _ =>
      destruct (for_inv (fun j (st : buf Z * buf Z) => length (fst st) = o + 1 /\ length (snd st) = o + 2 /\
         (forall k, k < j -> nth_error (fst st) k = Some (Some (cl k))) /\
         (forall k, k < j -> nth_error (snd st) k = Some (Some (cl k))))%nat body 0%nat o st0) as ([st sq] & E2 & (L1 & L2 & P1 & P2))
    end.
    + lia.
    + cbn [fst snd]. rewrite lset_length, !newbuf_length. repeat split; auto; intros; lia.
    + intros j [st sq] Hj (L1 & L2 & P1 & P2). cbn [fst snd] in *. rewrite bget_chars by lia. cbn [bind].
      rewrite !bset_ok by lia. cbn [bind]. eexists; split; [reflexivity|]. cbn [fst snd].
      rewrite !lset_length. repeat split; auto; intros k Hk; rewrite lset_nth_error; natcases; simpl; auto; try (subst; auto); try (apply P1; lia); apply P2; lia.
    + rewrite E2. cbn [bind fst snd] in *.
      assert (o =? 0 = false)%nat as -> by (apply Nat.eqb_neq; lia).
      bsets. rewrite bget_chars by lia. cbn [bind]. rewrite bset_ok by (simpl; lia). cbn [bind lset].
      rewrite HWg by lia. cbn [bind].
      set (l := (o - 1)%nat) in *.
      assert (Hol : o = S l) by lia.
      rewrite (assign_b_ok _ _ _ (cls o) [(V, cls l ++ [ch_star]); (fac W l, [cl l; ch_star])]).
      2:{ unfold order. cbn [zeros tabulate lens]. rewrite map_length, cls_len. apply take_list with (d:=0%Z); [apply cls_len|].
          intros j Hj. rewrite P1, cls_nth by lia. auto. }
      2:{ apply tixs2.
          - rewrite (arep_order rnd u dB _ _ _ _ _ Hrep). apply take_list with (d:=0%Z); auto.
            rewrite app_length, cls_len. simpl length. intros j Hj.
            rewrite lset_nth_error, nth_snoc, cls_len, L2.
            natcases; cbn [andb]; auto. rewrite P2, cls_nth by lia. auto.
          - destruct (W_mat l) as [E1 _]; [lia|lia|]. unfold order. rewrite E1. reflexivity. }
      set (q1 := mkFac rnd V (cls l ++ [ch_star]) (3 * (l - 1)) (PW reals l) (PW absols l)). set (q2 := mkFac rnd (fac W l) [cl l; ch_star] 0 (fun e : env => @el Rnum (reals (fac W l)) (e (cl l)) (e ch_star)) (fun e : env => @el Rnum (absols (fac W l)) (e (cl l)) (e ch_star))).
      destruct (contract_arep rnd u RE dB (zeros (map dB (cls o))) (cls o) [q1; q2] [ch_star]) as (B & EB & RB).
      * apply cls_nodup. lia.
      * reflexivity.
      * intros q [<-|[<-|[]]]; [exact Hrep|]. subst q2. cbn [ft fs fk fg fG]. destruct (W_mat l) as [E1 E2']; [lia|lia|]. split; [auto|].
        split; [rewrite E1; cbn [map]; rewrite dB_star; reflexivity|]. intros e He. apply rel_el.
      * repeat constructor. auto.
      * intros c. cbn. rewrite Hol, cls_S. rewrite !in_app_iff. simpl. split.
        -- intros [<-|[]]. split; auto. intros [H|[H|[]]]; [apply (cls_star l); auto; lia|].
           apply (cl_star l); auto. lia.
        -- intros [H1 H2]. tauto.
      * intros q [<-|[<-|[]]]; subst q1 q2; cbn [fg fG]; split; first [apply PW_env|apply (@el_env Rnum)].
      * subst q1 q2. unfold fpair in EB; cbn [map ft fs] in EB; rewrite EB. destruct RB as (RB1 & RB2 & RB3).
        assert (Hls : map dB (cls o) = map nrow W).
        { apply nth_ext with (d:=0%nat) (d':=0%nat); [rewrite !map_length, cls_len; auto|].
          intros k Hk. rewrite map_length, cls_len in Hk. rewrite (nth_map_lt _ _ _ 0%Z) by (rewrite cls_len; auto).
          rewrite (nth_map_lt _ _ _ tnil) by lia. rewrite cls_nth, dB_cl by lia. auto. }
        exists B. split; [reflexivity|]. split; [auto|]. split; [rewrite RB2; auto|].
        intros idx Hidx. rewrite <- Hls in Hidx.
        destruct (inb_env dB (cls o) idx) as (e & <- & He); [apply cls_nodup; lia|auto|].
        specialize (RB3 e He). cbn [map fk ksum fold_right length] in RB3. rewrite dB_star in RB3.
        assert (EC : forall h : tensor N -> tensor Rnum, h tnil = tnil ->
           @sumc Rnum dB [ch_star] (fun e' => (PW h l e' * (@el Rnum (h (fac W l)) (e' (cl l)) (e' ch_star) * n1))%num) e = @cp_at Rnum (map h W) R (map e (cls o))).
        { intros h Eh. unfold cp_at. cbn [sumc]. rewrite dB_star, map_length, HLW. apply bigsum_ext. intros r Hr.
          transitivity (PW h o (upd e ch_star r)).
          { rewrite Hol, PW_S. cbn [nmul n1 Rnum]. rewrite RIneq.Rmult_1_r. reflexivity. }
          unfold PW. apply bigprod_ext. intros m Hm. apply in_seq in Hm. rewrite (fac_map h) by auto.
          rewrite upd_same, upd_other by (apply cl_star; lia).
          rewrite (nth_map_lt _ _ _ 0%Z) by (rewrite cls_len; lia). rewrite cls_nth by lia. auto. }
        cbn [bigprod fold_right fg fG] in RB3. rewrite (EC reals) in RB3 by reflexivity. rewrite (EC absols) in RB3 by reflexivity.
        eapply rel_mono; [exact (proj1 RE)| |exact RB3]. lia. }
Qed.
End P.
