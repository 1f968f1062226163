(** build_V computes the tensor represented by the factors *)
From Coq Require Import List ZArith Lia Bool Arith Permutation Ring.
From Verif Require Import Base Num Tensor Spec MCommon PBase PTensor PSum PMttkrp PMat PKhatri PResid.
Import ListNotations.

Definition cl (j : nat) : Z := nth j (map (fun i => (105 + Z.of_nat i)%Z) (seq 0 18) ++ [0%Z]) 0%Z.
Lemma bget_chars j : j < 19 -> bget chars18 j = Ok (cl j).
Proof. intros H. do 19 (destruct j as [|j]; [reflexivity|]). lia. Qed.
Lemma bget_chars_out j : 19 <= j -> bget chars18 j = Err UB.
Proof. intros H. unfold bget. destruct (nth_error chars18 j) eqn:E; auto. apply nth_error_Some_bound_index in E || (assert (j < length chars18) by (apply nth_error_Some; congruence); simpl in *; lia). Qed.
Lemma cl_val j : j < 19 -> cl j = if j <? 18 then (105 + Z.of_nat j)%Z else 0%Z.
Proof. intros H. do 19 (destruct j as [|j]; [reflexivity|]). lia. Qed.
Lemma cl_inj i j : i < 19 -> j < 19 -> cl i = cl j -> i = j.
Proof. intros. rewrite !cl_val in * by auto. revert H1. natcases; lia. Qed.
Lemma cl_star i : i < 19 -> cl i <> ch_star.
Proof. intros. rewrite !cl_val in * by auto. unfold ch_star. natcases; lia. Qed.

Section P.
Context {N : num} (RL : ring_laws N).
Let RT : ring_theory (@n0 N) n1 nadd nmul nsub nopp (@eq N) := RL.
Add Ring Nring : RT.
Local Open Scope num_scope.
Context (W : list (tensor N)) (R o : nat).
Hypothesis Ho : 2 <= o.
Hypothesis HLW : length W = o.
Hypothesis HW : forall m, m < o -> exists r, is_mat (fac W m) r R.

Definition dB (c : Z) : nat :=
  if Z.eqb c ch_star then R else if Z.eqb c 0 then nrow (fac W 18) else nrow (fac W (Z.to_nat (c - 105))).
Lemma dB_star : dB ch_star = R.
Proof. reflexivity. Qed.
Lemma dB_cl m : m < 19 -> dB (cl m) = nrow (fac W m).
Proof.
  intros Hm. unfold dB. pose proof (cl_star m). destruct (Z.eqb_spec (cl m) ch_star); [exfalso; apply H; [lia|auto]|].
  rewrite cl_val by lia. destruct (Nat.ltb_spec m 18).
  - destruct (Z.eqb_spec (105 + Z.of_nat m) 0); [lia|]. do 2 f_equal. lia.
  - assert (m = 18) by lia. subst. reflexivity.
Qed.
Lemma W_mat m : m < o -> m < 19 -> is_mat (fac W m) (dB (cl m)) R.
Proof. intros Hm Hm'. rewrite dB_cl by auto. destruct (HW m Hm) as [r Hr]. rewrite (is_mat_nrow _ _ _ Hr). auto. Qed.

Definition PW (i : nat) (e : env) : N := bigprod (seq 0 i) (fun m => el (fac W m) (e (cl m)) (e ch_star)).
Lemma PW_env i : envext (PW i).
Proof. intros e e' H. apply bigprod_ext. intros. rewrite !H. auto. Qed.
Lemma PW_S i e : PW (S i) e = PW i e * el (fac W i) (e (cl i)) (e ch_star).
Proof. unfold PW. rewrite seq_S, (bigprod_app RL). cbn [Nat.add]. simpl. ring. Qed.
Definition cls i := map cl (seq 0 i).
Lemma cls_len i : length (cls i) = i.
Proof. unfold cls. rewrite map_length, seq_length. auto. Qed.
Lemma cls_nth i j d : j < i -> nth j (cls i) d = cl j.
Proof. intros. unfold cls. rewrite (nth_map_lt _ _ _ 0%nat) by (rewrite seq_length; auto). rewrite nth_seq; auto. Qed.
Lemma cls_nodup i : i <= 19 -> NoDup (cls i).
Proof. intros H. apply NoDup_map_inj; [|apply seq_NoDup]. intros x y Hx Hy. apply in_seq in Hx, Hy. apply cl_inj; lia. Qed.
Lemma cls_star i : i <= 19 -> ~ In ch_star (cls i).
Proof. intros H Hin. apply in_map_iff in Hin as (m & E & Hm). apply in_seq in Hm. apply (cl_star m); auto. lia. Qed.
Lemma clss_nodup i : i <= 19 -> NoDup (cls i ++ [ch_star]).
Proof.
  intros. apply NoDup_app_intro; [apply cls_nodup; auto|repeat constructor; auto|].
  intros x Hx [<-|[]]. apply (cls_star i); auto.
Qed.
Lemma cls_S i : cls (S i) = cls i ++ [cl i].
Proof. unfold cls. rewrite seq_S, map_app. reflexivity. Qed.

Lemma build_loop hi : 1 <= hi <= 19 -> hi <= o - 1 ->
  exists st, for_ 1 hi (build_V_step W R) (fac W 0, lit [ch_i; ch_star]) = Ok st /\
    rep dB (fst st) (cls hi ++ [ch_star]) (PW hi) /\ exists x, snd st = [x; Some ch_star; Some 0%Z].
Proof.
  intros Hhi Hhio.
  assert (HWg : forall k, k < o -> lget W k = Ok (fac W k)) by (intros; apply lget_ok; lia).
  apply (for_inv (fun i (st : tensor N * buf Z) =>
       rep dB (fst st) (cls i ++ [ch_star]) (PW i)
       /\ exists x, snd st = [x; Some ch_star; Some 0%Z])).
  - lia.
  - cbn [fst snd]. split; [|eexists; reflexivity].
    destruct (W_mat 0%nat) as [E1 E2]; [lia|lia|]. split; [auto|split].
    + rewrite E1. reflexivity.
    + intros e He. unfold PW. simpl. unfold el. ring.
  - intros i [V sw] Hi [Hr [x Hx]]. cbn [fst snd] in Hr, Hx. subst sw.
    unfold build_V_step.
    fillwith 0%nat (fun j => nrow (fac W j)) (i + 2)%nat Ll Pl.
    { intros j b Hj Hb. rewrite HWg by lia. cbn [bind]. f_equal; lia. }
    bsets.
    rewrite (take_zeros _ _ (map dB (cls (i + 1) ++ [ch_star]))).
    2:{ apply take_list with (d:=0%nat); [rewrite map_length, app_length, cls_len; simpl; lia|].
        intros j Hj. rewrite lset_nth_error, Pl, Ll.
        rewrite (nth_map_lt _ _ _ 0%Z) by (rewrite app_length, cls_len; simpl; lia).
        rewrite nth_snoc, cls_len. natcases; simpl; auto.
        rewrite cls_nth, dB_cl by lia. do 4 f_equal. lia. }
    cbn [bind]. bsets.
    fillwith 0%nat cl (i + 3)%nat Ltt Pt.
    { intros j b' Hj Hb'. rewrite bget_chars by lia. cbn [bind]. f_equal; lia. }
    bsets.
    fillwith 0%nat cl (i + 2)%nat Lq Pq.
    { intros j b' Hj Hb'. rewrite bget_chars by lia. cbn [bind]. f_equal; lia. }
    rewrite bget_chars by lia. cbn [bind]. rewrite bset_ok by (simpl; lia). cbn [bind lset].
    rewrite HWg by lia. cbn [bind].
    rewrite (assign_b_ok _ _ _ (cls (i + 1) ++ [ch_star]) [(V, cls i ++ [ch_star]); (fac W i, [cl i; ch_star])]).
    2:{ unfold order. cbn [zeros tabulate lens]. rewrite map_length. apply take_list with (d:=0%Z); auto.
        rewrite app_length, cls_len. simpl length. intros j Hj.
        rewrite Pt, !lset_nth_error, nth_snoc, cls_len, lset_length, newbuf_length.
        natcases; cbn [andb]; auto. rewrite cls_nth by lia. do 3 f_equal. lia. }
    2:{ apply tixs2.
        - rewrite (rep_order dB _ _ _ Hr). apply take_list with (d:=0%Z); auto.
          rewrite app_length, cls_len. simpl length. intros j Hj.
          rewrite Pq, !lset_nth_error, nth_snoc, cls_len, lset_length, newbuf_length.
          natcases; cbn [andb]; auto. rewrite cls_nth by lia. do 3 f_equal. lia.
        - destruct (W_mat i) as [E1 _]; [lia|lia|]. unfold order. rewrite E1. reflexivity. }
    set (fg := [((V, cls i ++ [ch_star]), PW i); ((fac W i, [cl i; ch_star]), fun e : env => el (fac W i) (e (cl i)) (e ch_star))]).
    destruct (contract_rep RL dB (zeros (map dB (cls (i + 1) ++ [ch_star]))) (cls (i + 1) ++ [ch_star]) fg []) as (B & EB & RB).
    + apply clss_nodup. lia.
    + reflexivity.
    + constructor; [auto|constructor; [|constructor]]. cbn [fst snd].
      eapply el_rep; [|apply W_mat; lia|auto|apply dB_star]. apply cl_star. lia.
    + constructor.
    + intros c. split; [intros []|]. intros [H1 H2]. apply H2. cbn in H1.
      rewrite Nat.add_1_r, cls_S. rewrite !in_app_iff in *. simpl in *. intuition.
    + intros q [<-|[<-|[]]]; [apply PW_env|apply el_env].
    + unfold fg in EB; cbn [map fst] in EB; rewrite EB. cbn [bind]. eexists; split; [reflexivity|]. cbn [fst snd].
      split; [|eexists; reflexivity]. rewrite Nat.add_1_r in RB. eapply rep_ext; [exact RB|].
      intros e He. rewrite PW_S. simpl. ring.
Qed.

Theorem build_V_ok : o <= 19 -> build_V W o = Ok (cp_full W R).
Proof.
  intros Ho'. unfold build_V.
  assert (HWg : forall k, k < o -> lget W k = Ok (fac W k)) by (intros; apply lget_ok; lia).
  rewrite HWg by lia. cbn [bind].
  assert (ncol (fac W 0) = R) as -> by (destruct (HW 0%nat) as [r Hr]; [lia|]; apply (is_mat_ncol _ _ _ Hr)).
  destruct (build_loop (o - 1)) as ([V sw] & E & (Hrep & [x Hx])); [lia|lia|].
  { rewrite E. cbn [bind fst snd] in *. subst sw.
    fillwith 0%nat (fun j => nrow (fac W j)) o Ll Pl.
    { intros j b Hj Hb. rewrite HWg by lia. cbn [bind]. f_equal; lia. }
    rewrite (take_zeros _ _ (map dB (cls o))).
    2:{ apply take_list with (d:=0%nat); [rewrite map_length, cls_len; auto|].
        intros j Hj. rewrite Pl. rewrite (nth_map_lt _ _ _ 0%Z) by (rewrite cls_len; auto).
        rewrite cls_nth, dB_cl by lia. natcases; simpl. do 4 f_equal. lia. }
    cbn [bind]. bsets.
    lazymatch goal with |- bind (for_ 0 o ?body ?st0) _ = _ =>
      destruct (for_inv (fun j (st : buf Z * buf Z) => length (fst st) = o + 1 /\ length (snd st) = o + 2 /\
         (forall k, k < j -> nth_error (fst st) k = Some (Some (cl k))) /\
         (forall k, k < j -> nth_error (snd st) k = Some (Some (cl k))))%nat body 0%nat o st0) as ([st sq] & E2 & (L1 & L2 & P1 & P2))
    end.
    + lia.
    + cbn [fst snd]. rewrite lset_length, !newbuf_length. repeat split; auto; intros; lia.
    + intros j [st sq] Hj (L1 & L2 & P1 & P2). cbn [fst snd] in *. rewrite bget_chars by lia. cbn [bind].
      rewrite !bset_ok by lia. cbn [bind]. eexists; split; [reflexivity|]. cbn [fst snd].
      rewrite !lset_length. repeat split; auto; intros k Hk; rewrite lset_nth_error; natcases; simpl; auto; try (subst; auto); try (apply P1; lia); apply P2; lia.
    + rewrite E2. cbn [bind fst snd] in *.
      assert (o =? 0 = false)%nat as -> by (apply Nat.eqb_neq; lia).
      bsets. rewrite bget_chars by lia. cbn [bind]. rewrite bset_ok by (simpl; lia). cbn [bind lset].
      rewrite HWg by lia. cbn [bind].
      set (l := (o - 1)%nat) in *.
      assert (Hol : o = S l) by lia.
      rewrite (assign_b_ok _ _ _ (cls o) [(V, cls l ++ [ch_star]); (fac W l, [cl l; ch_star])]).
      2:{ unfold order. cbn [zeros tabulate lens]. rewrite map_length, cls_len. apply take_list with (d:=0%Z); [apply cls_len|].
          intros j Hj. rewrite P1, cls_nth by lia. auto. }
      2:{ apply tixs2.
          - rewrite (rep_order dB _ _ _ Hrep). apply take_list with (d:=0%Z); auto.
            rewrite app_length, cls_len. simpl length. intros j Hj.
            rewrite lset_nth_error, nth_snoc, cls_len, L2.
            natcases; cbn [andb]; auto. rewrite P2, cls_nth by lia. auto.
          - destruct (W_mat l) as [E1 _]; [lia|lia|]. unfold order. rewrite E1. reflexivity. }
      set (fg := [((V, cls l ++ [ch_star]), PW l); ((fac W l, [cl l; ch_star]), fun e : env => el (fac W l) (e (cl l)) (e ch_star))]).
      destruct (contract_rep RL dB (zeros (map dB (cls o))) (cls o) fg [ch_star]) as (B & EB & RB).
      * apply cls_nodup. lia.
      * reflexivity.
      * constructor; [auto|constructor; [|constructor]]. cbn [fst snd].
        eapply el_rep; [|apply W_mat; lia|auto|apply dB_star]. apply cl_star. lia.
      * repeat constructor. auto.
      * intros c. cbn. rewrite Hol, cls_S. rewrite !in_app_iff. simpl. split.
        -- intros [<-|[]]. split; auto. intros [H|[H|[]]]; [apply (cls_star l); auto; lia|].
           apply (cl_star l); auto. lia.
        -- intros [H1 H2]. tauto.
      * intros q [<-|[<-|[]]]; [apply PW_env|apply el_env].
      * unfold fg in EB; cbn [map fst] in EB; rewrite EB. f_equal. destruct RB as (RB1 & RB2 & RB3).
        assert (Hls : map dB (cls o) = map nrow W).
        { apply nth_ext with (d:=0%nat) (d':=0%nat); [rewrite !map_length, cls_len; auto|].
          intros k Hk. rewrite map_length, cls_len in Hk. rewrite (nth_map_lt _ _ _ 0%Z) by (rewrite cls_len; auto).
          rewrite (nth_map_lt _ _ _ tnil) by lia. rewrite cls_nth, dB_cl by lia. auto. }
        apply tensor_ext; auto.
        -- apply tabulate_wf.
        -- unfold cp_full. cbn [lens tabulate]. rewrite RB2. auto.
        -- intros idx Hidx. rewrite RB2 in Hidx. unfold cp_full. rewrite at_tabulate by (rewrite <- Hls; auto).
           destruct (inb_env dB (cls o) idx) as (e & <- & He); [apply cls_nodup; lia|auto|].
           rewrite RB3 by auto. unfold cp_at. cbn [sumc]. rewrite dB_star, HLW.
           apply bigsum_ext. intros r Hr.
           transitivity (PW o (upd e ch_star r)).
           { rewrite Hol, PW_S. simpl. ring. }
           unfold PW. apply bigprod_ext. intros m Hm. apply in_seq in Hm.
           rewrite upd_same, upd_other by (apply cl_star; lia).
           rewrite (nth_map_lt _ _ _ 0%Z) by (rewrite cls_len; lia). rewrite cls_nth by lia. auto. }
Qed.

(** beyond the table of letters *)
Theorem build_V_ub : 20 <= o -> build_V W o = Err UB.
Proof.
  intros Ho'. unfold build_V.
  assert (HWg : forall k, k < o -> lget W k = Ok (fac W k)) by (intros; apply lget_ok; lia).
  rewrite HWg by lia. cbn [bind].
  assert (ncol (fac W 0) = R) as -> by (destruct (HW 0%nat) as [r Hr]; [lia|]; apply (is_mat_ncol _ _ _ Hr)).
  destruct (build_loop 19) as ([V sw] & E & (Hrep & [x Hx])); [lia|lia|].
  destruct (Nat.eq_dec o 20) as [->|Hne].
  - change (20 - 1)%nat with 19%nat. rewrite E. cbn [bind].
    fillwith 0%nat (fun j => nrow (fac W j)) 20%nat Ll Pl.
    { intros j b Hj Hb. rewrite HWg by lia. cbn [bind]. f_equal; lia. }
    rewrite (take_zeros 20 _ (map (fun j => nrow (fac W j)) (seq 0 20))).
    2:{ apply take_spec. intros j Hj. rewrite Pl. natcases. simpl. do 4 f_equal. lia. }
    cbn [bind]. bsets.
    rewrite (for_split 0 19 20) by lia.
    lazymatch goal with |- context [for_ 0 19 ?body ?st0] =>
      destruct (for_inv (fun j (st : buf Z * buf Z) => length (fst st) = 21 /\ length (snd st) = 22)%nat body 0%nat 19%nat st0) as ([st sq] & E2 & (L1 & L2))
    end.
    + lia.
    + cbn [fst snd]. rewrite lset_length, !newbuf_length. auto.
    + intros j [st sq] Hj [L1 L2]. cbn [fst snd] in *. rewrite bget_chars by lia. cbn [bind].
      rewrite !bset_ok by lia. cbn [bind]. eexists; split; [reflexivity|]. cbn [fst snd]. rewrite !lset_length. auto.
    + rewrite E2. cbn [bind]. unfold for_. change (20 - 19)%nat with 1%nat. cbn [loop]. rewrite bget_chars_out by lia. reflexivity.
  - rewrite (for_split 1 19 (o - 1)) by lia. rewrite E. cbn [bind].
    rewrite (for_first 19 (o - 1)) by lia.
    assert (Eb : build_V_step W R 19 (V, sw) = Err UB).
    { unfold build_V_step.
      fillwith 0%nat (fun j => nrow (fac W j)) (19 + 2)%nat Ll Pl.
      { intros j b Hj Hb. rewrite HWg by lia. cbn [bind]. f_equal; lia. }
      bsets.
      rewrite (take_zeros _ _ (map (fun j => if (j <? 20)%nat then nrow (fac W j) else R) (seq 0 21))).
      2:{ apply take_spec. intros j Hj. rewrite lset_nth_error, Pl, Ll. natcases; simpl; auto. do 4 f_equal. lia. }
      cbn [bind]. bsets. rewrite (for_split 0 19 (19 + 1)) by lia.
      lazymatch goal with |- context [for_ 0 19 ?body ?st0] =>
        destruct (for_inv (fun j (st : buf Z) => length st = 22)%nat body 0%nat 19%nat st0) as (st & E2 & L1)
      end.
      - lia.
      - rewrite !lset_length, newbuf_length. auto.
      - intros j st Hj L1. rewrite bget_chars by lia. cbn [bind]. rewrite bset_ok by lia. eexists; split; [reflexivity|]. rewrite lset_length. auto.
      - rewrite E2. cbn [bind]. unfold for_. change (19 + 1 - 19)%nat with 1%nat. cbn [loop]. rewrite bget_chars_out by lia. reflexivity. }
    rewrite Eb. reflexivity.
Qed.
End P.


Lemma build_V_small {N : num} (W : list (tensor N)) o r R :
  o <= 1 -> 1 <= length W -> is_mat (fac W 0) r R -> build_V W o = Err UB.
Proof.
  intros Ho HL [HW _]. destruct W as [|W0 W]; [simpl in HL; lia|]. unfold fac in HW. cbn in HW.
  destruct o as [|[|o]]; [reflexivity| |lia].
  cbn. unfold assign_b, tixs, tix, order. rewrite HW. reflexivity.
Qed.
