(** Tucker sweeps: plain, dimension tree, dimension tree with sign alignment *)
From Coq Require Import List ZArith Lia Bool Arith Permutation Ring.
From Verif Require Import Base Num Tensor Spec Spec7 MCommon MCP MTucker PBase PTensor PSum PMttkrp PPart PMat PKhatri PGrad PDrivers PTree PBuildV PTtm PTucker PHosvd PTDT PSign.
Import ListNotations.

Section P.
Context {N : num} (RL : ring_laws N) (LA : lapack N).
Let RT : ring_theory (@n0 N) n1 nadd nmul nsub nopp (@eq N) := RL.
Add Ring NringW : RT.
Local Open Scope num_scope.

Lemma assign_same (C T : tensor N) (s : str) : NoDup s -> length s = order T -> wf T -> lens C = lens T ->
  assign false C s [prodt [(T, s)]] = Ok T.
Proof.
  intros Hs Ls HT LC. set (d := dl s (lens T) []).
  assert (Hds : map d s = lens T) by (apply dl_base; auto).
  set (fg := [(T, s, fun e => at_ T (map e s))] : list (tensor N * str * (env -> N))).
  destruct (contract_rep RL d C s fg []) as (B & EB & WB & LB & AB).
  - auto.
  - rewrite LC. auto.
  - constructor; [|constructor]. cbn [fst snd]. apply rep_self; auto.
  - constructor.
  - intros c. unfold fg. cbn [map fst snd flat_map In]. rewrite app_nil_r. tauto.
  - intros q [<-|[]]; cbn [snd]; apply at_env.
  - cbn [map fst fg] in EB. rewrite EB. f_equal. apply tensor_ext; auto; [rewrite LB; auto|].
    intros idx Hi. rewrite LB in Hi. destruct (inb_env d s idx Hs Hi) as (e & Ee & He). rewrite <- Ee. rewrite AB by auto.
    cbn [sumc bigprod fold_right fg snd]. ring.
Qed.

(** the square root used for the norm is never negative *)
Definition sqrt_nonneg : Prop := forall x : N, nltb (nsqrt x) n0 = false.
Hypothesis Hsq : sqrt_nonneg.
Hypothesis Hsvd : svd_trunc_shaped (svd LA).

Lemma tk_svd_ok (core Y : tensor N) i : wf Y -> order Y <= 18 -> i < order Y -> i < order core ->
  tk_svd LA core Y i = Ok (lsv (svd LA) (unfold_gram Y i) (nth i (lens core) 0%nat),
     let '(_, Sg, _) := svd LA (unfold_gram Y i) (nth i (lens core) 0%nat) in Sg).
Proof.
  intros HY Ho Hi Hc. unfold tk_svd. rewrite (unroll_ok RL) by auto. cbn [bind].
  rewrite (lget_ok _ _ 0%nat) by auto. cbn [bind]. unfold lsv.
  destruct (svd LA (unfold_gram Y i) (nth i (lens core) 0%nat)) as [[U Sg] VT].
  unfold norm2. rewrite Hsq. cbn [bind]. auto.
Qed.

Context (V : tensor N) (ranks : list nat).
Let o := order V.
Hypothesis Ho : (2 <= o <= 18)%nat.
Hypothesis Hr : ranks_ok (lens V) ranks.

Lemma ranks_len : length ranks = o. Proof. apply Hr. Qed.
Lemma Y_lens W i : tucker_ok V W ranks -> (i < o)%nat -> lset ranks i (nth i (lens V) 0%nat) = ttmc_lens V W (others i o).
Proof.
  intros (HV & LW & LR & HW) Hi. apply nth_eq_ext with (d:=0%nat).
  - rewrite lset_length, ttmc_lens_length. auto.
  - intros m Hm. rewrite lset_length, LR in Hm. rewrite ttmc_lens_nth by auto.
    destruct (Nat.eq_dec m i) as [->|Hn].
    + rewrite lset_same by (rewrite LR; auto). rewrite existsb_not by (rewrite others_in; tauto). auto.
    + rewrite lset_other by auto. rewrite existsb_yes by (apply others_in; auto). symmetry. apply (mat_ncol _ _ _ (HW m Hm)).
Qed.
Lemma Y_nth W i : (i < o)%nat -> nth i (lens (ttmc V W (others i o))) 0%nat = nth i (lens V) 0%nat.
Proof. intros Hi. cbn [ttmc tabulate lens]. rewrite ttmc_lens_nth by auto. rewrite existsb_not by (rewrite others_in; tauto). auto. Qed.
Lemma hooi_factor_mat W i : (i < o)%nat -> is_mat (hooi_factor (svd LA) V ranks W i) (nth i (lens V) 0%nat) (nth i ranks 0%nat).
Proof.
  intros Hi. unfold hooi_factor. fold o. pose proof (lsv_mat LA (ttmc V W (others i o)) i (nth i ranks 0%nat) Hsvd) as X. rewrite Y_nth in X by auto. apply X. apply Hr. auto.
Qed.
Lemma setf_tucker W i A : tucker_ok V W ranks -> (i < o)%nat -> is_mat A (nth i (lens V) 0%nat) (nth i ranks 0%nat) ->
  tucker_ok V (setf W i A) ranks.
Proof.
  intros (HV & LW & LR & HW) Hi HA. split; auto. split; [rewrite setf_length; auto|]. split; auto.
  intros m Hm. rewrite fac_setf by (rewrite LW; auto). destruct (Nat.eqb_spec m i) as [->|]; auto.
Qed.

(** iterating an update that changes one factor at a time *)
Section Upto.
Context (upd : list (tensor N) -> nat -> tensor N).
Hypothesis Hupd : forall W i, tucker_ok V W ranks -> (i < o)%nat -> is_mat (upd W i) (nth i (lens V) 0%nat) (nth i ranks 0%nat).
Definition uptow (n : nat) (W : list (tensor N)) := fold_left (fun W n => setf W n (upd W n)) (seq 0 n) W.
Lemma uptow_S n W : uptow (S n) W = setf (uptow n W) n (upd (uptow n W) n).
Proof. unfold uptow. rewrite seq_S, fold_left_app. reflexivity. Qed.
Lemma uptow_ok n W : (n <= o)%nat -> tucker_ok V W ranks -> tucker_ok V (uptow n W) ranks.
Proof.
  induction n; intros Hn HW; auto. rewrite uptow_S. apply setf_tucker; [apply IHn; auto; lia|lia|].
  apply Hupd; [apply IHn; auto; lia|lia].
Qed.
End Upto.

Lemma end_core_ok (core : tensor N) W W' : lens core = ranks -> tucker_ok V W' ranks -> tucker_ok V W ranks ->
  (forall m, (m < o - 1)%nat -> fac W m = fac W' m) ->
  end_core o (lbuf o) core (ttmc V W' (others (o - 1) o)) W = Ok (tucker_core V W).
Proof.
  intros LC HW' HW HE. pose proof HW as (HV & LW & LR & HM).
  unfold end_core, mk_ends.
  destruct (fill_for 0 o (fun j b => bset b j (chr j)) 0 (fun j => chr j) (newbuf (o + 1)) (o + 1)) as (b & Eb & Lb & Pb).
  { apply newbuf_length. } { lia. } { intros m c Hm Hc. f_equal; lia. }
  unfold fill_letters. rewrite Eb. cbn [bind]. rewrite (proj2 (Nat.eqb_neq _ _)) by lia. rewrite bset_ok by lia. cbn [bind].
  rewrite (lget_ok W (o - 1) tnil) by (rewrite LW; fold o; lia). cbn [bind]. fold (fac W (o - 1)).
  set (s := letters chr o).
  assert (Ls : length s = o) by apply letters_len.
  rewrite (assign_b_ok _ _ _ s [(ttmc V W' (others (o - 1) o), lset s (o - 1) ch_star); (fac W (o - 1), [ch_star; chr (o - 1)])]).
  2:{ assert (order core = o) as -> by (unfold order; rewrite LC; apply ranks_len). apply lbuf_take. }
  2:{ apply tixs2.
      - rewrite ttmc_order. fold o. apply take_list with (d:=0%Z); [rewrite lset_length; auto|].
        intros j Hj. rewrite lset_nth_error. destruct (Nat.eqb_spec j (o - 1)) as [->|Hn].
        + rewrite (proj2 (Nat.ltb_lt _ _)) by lia. rewrite lset_same by lia. auto.
        + rewrite lset_other by auto. rewrite Pb. cbn [Nat.leb andb]. rewrite (proj2 (Nat.ltb_lt _ _)) by lia.
          f_equal. f_equal. unfold s. rewrite letters_nth by lia. f_equal. lia.
      - rewrite lit_sb. apply sb_take. apply (mat_order _ _ _ (HM (o - 1)%nat ltac:(fold o; lia))). }
  set (s' := lset s (o - 1) ch_star).
  assert (Hsf : ~ In ch_star s) by (apply star_fresh; lia).
  assert (Hs : NoDup s) by (apply letters_chr_nodup; lia).
  assert (Es : s = lset s' (o - 1) (chr (o - 1))).
  { unfold s'. rewrite lset_lset. replace (chr (o - 1)) with (nth (o - 1) s 0%Z) by (apply letters_nth; lia). symmetry. apply lset_self. }
  assert (En : [ch_star; chr (o - 1)] = [nth (o - 1) s' 0%Z; chr (o - 1)]).
  { unfold s'. rewrite lset_same by lia. auto. }
  rewrite Es at 1. rewrite En.
  assert (Hno : ~ In (o - 1)%nat (others (o - 1) o)) by (rewrite others_in; tauto).
  assert (EY : ttmc V W' (others (o - 1) o) = ttmc V W (others (o - 1) o)).
  { apply ttmc_ext. intros m Hm. apply others_in in Hm. symmetry. apply HE. lia. }
  rewrite EY.
  rewrite (assign_ttm RL false).
  - rewrite (ttm_ttmc RL) by (auto; fold o; lia). f_equal. unfold tucker_core. fold o. apply (ttmc_perm RL).
    apply NoDup_Permutation; [constructor; auto; apply others_nodup|apply seq_NoDup|].
    intros m. cbn [In]. rewrite others_in, in_seq. lia.
  - apply NoDup_lset; auto.
  - unfold s'. rewrite lset_length, ttmc_order. auto.
  - rewrite ttmc_order. fold o. lia.
  - unfold s'. rewrite in_lset by (auto; lia). intros [E|[_ E]].
    + apply Hsf. rewrite <- E. rewrite <- (letters_nth chr o (o - 1) 0%Z) by lia. apply nth_In. lia.
    + apply E. symmetry. apply letters_nth. lia.
  - apply ttmc_wf.
  - rewrite Y_nth by lia. assert (X := HM (o - 1)%nat ltac:(fold o; lia)). rewrite (mat_ncol _ _ _ X). auto.
  - rewrite LC. cbn [ttmc tabulate lens]. rewrite <- (Y_lens W) by (auto; lia). rewrite lset_lset.
    rewrite (mat_ncol _ _ _ (HM (o - 1)%nat ltac:(fold o; lia))). symmetry. apply lset_self.
Qed.

Lemma save_Yend_ok i (Y_end Y : tensor N) : (i < o)%nat -> wf Y -> order Y = o -> ((i + 1 = o)%nat -> lens Y_end = lens Y) ->
  save_Yend o i Y_end Y (lbuf o) = Ok (if Nat.eqb (i + 1) o then Y else Y_end).
Proof.
  intros Hi HY OY HL. unfold save_Yend. destruct (Nat.eqb_spec (i + 1) o) as [E|E]; auto.
  rewrite lbuf_sb. assert (order Y_end = o) by (unfold order; rewrite HL by auto; auto).
  rewrite assign_b_sb1 by (rewrite letters_len; auto). apply assign_same; auto.
  - apply letters_chr_nodup; lia.
  - rewrite letters_len; auto.
Qed.

(** ** the table during a sweep *)
Definition ttable_ok (W : list (tensor N)) (i : nat) (mp : smap (tensor N)) : Prop :=
  forall s T, mp s = Some T -> exists x y, s = range_str x y /\ (x <= y)%nat /\ (x <= i)%nat /\ (y < o)%nat /\
    ((i <= y)%nat -> T = tnode V W x y).
Lemma ttable_valid W i mp : ttable_ok W i mp -> tvalid V W i mp.
Proof.
  intros H x y T Hx Hy E. destruct (H _ _ E) as (x' & y' & Es & H1 & H2 & H3 & H4). fold o in Hy.
  apply range_str_inj in Es as [-> ->]; try lia. apply H4. lia.
Qed.
Lemma ttable_next W i A mp mp' : length W = o -> (i < o)%nat -> ttable_ok W i mp -> tvalid V W i mp' ->
  (forall s T, mp' s = Some T -> mp s = Some T \/ exists x' y', (x' <= i <= y')%nat /\ (y' < o)%nat /\ s = range_str x' y') ->
  ttable_ok (setf W i A) (S i) mp'.
Proof.
  intros HW Hi Hmp Hv Hnew s T E.
  assert (Hs : exists x y, s = range_str x y /\ (x <= y)%nat /\ (x <= i)%nat /\ (y < o)%nat).
  { destruct (Hnew s T E) as [E0|(x & y & H1 & H2 & H3)].
    - destruct (Hmp s T E0) as (x & y & H1 & H2 & H3 & H4 & _). eauto 10.
    - exists x, y. repeat split; auto; lia. }
  destruct Hs as (x & y & -> & H1 & H2 & H3). exists x, y. split; auto. split; [lia|]. split; [lia|]. split; [lia|]. intros H4.
  rewrite (Hv x y T); auto; [|lia]. apply tnode_ext; [fold o; lia|]. intros m Hm Hout. rewrite fac_setf by (rewrite HW; auto).
  destruct (Nat.eqb_spec m i); auto. lia.
Qed.
Lemma ttable_empty W : ttable_ok W 0 sempty.
Proof. intros s T E. discriminate. Qed.

Section DT.
Context (fuel : nat) (parent sibling : smap str).
Hypothesis Hfuel : (o < fuel)%nat.
Hypothesis Htree : tree_maps o parent sibling.
Hypothesis Hgood : (o = 2 \/ o = 4 \/ 6 <= o)%nat.

Lemma tree_Y W i mp : tucker_ok V W ranks -> (i < o)%nat -> tvalid V W i mp ->
  exists mp', dt_Y fuel parent sibling V W (lbuf o) (zeros (lset ranks i (nth i (lens V) 0%nat))) mp (lbuf o) i
     = Ok (mp', ttmc V W (others i o), lbuf o) /\ tvalid V W i mp' /\
    (forall s T, mp' s = Some T -> mp s = Some T \/ exists x' y', (x' <= i <= y')%nat /\ (y' < o)%nat /\ s = range_str x' y').
Proof.
  intros HW Hi Hv. apply (dt_Y_ok RL V); auto; [lia|eapply tucker_shapes; eauto|]. cbn [zeros tabulate lens]. apply Y_lens; auto.
Qed.

Lemma DT_mode_ok (core : tensor N) W mp Y_end i : lens core = ranks -> tucker_ok V W ranks -> (i < o)%nat -> tvalid V W i mp ->
  lens Y_end = ttmc_lens V W (others (o - 1) o) ->
  exists mp', Tucker_DT_mode LA fuel parent sibling V core (lbuf o) i (W, mp, Y_end, ranks, lbuf o)
    = Ok (setf W i (hooi_factor (svd LA) V ranks W i), mp',
          if Nat.eqb (i + 1) o then ttmc V W (others (o - 1) o) else Y_end, ranks, lbuf o) /\ tvalid V W i mp' /\
    (forall s T, mp' s = Some T -> mp s = Some T \/ exists x' y', (x' <= i <= y')%nat /\ (y' < o)%nat /\ s = range_str x' y').
Proof.
  intros LC HW Hi Hv HY. pose proof HW as (HV & LW & LR & HM). unfold Tucker_DT_mode.
  rewrite (lget_ok (lens V) i 0%nat) by auto. cbn [bind].
  rewrite lput_ok by (rewrite LR; auto). cbn [bind].
  rewrite (lget_ok W i tnil) by (rewrite LW; auto). cbn [bind]. fold (fac W i).
  rewrite lput_ok by (rewrite lset_length, LR; auto). cbn [bind]. rewrite lset_lset.
  rewrite (mat_ncol _ _ _ (HM i Hi)), lset_self.
  destruct (tree_Y W i mp HW Hi Hv) as (mp' & E & Hv' & Hnew). rewrite E. cbn [bind].
  exists mp'. split; [|auto]. fold o. rewrite save_Yend_ok; auto; [|apply ttmc_wf|apply ttmc_order|].
  2:{ intros Ei. rewrite HY. replace i with (o - 1)%nat by lia. auto. }
  cbn [bind]. rewrite tk_svd_ok.
  - cbn [bind]. rewrite lput_ok by (rewrite LW; auto). cbn [bind]. f_equal. f_equal. f_equal. f_equal; [f_equal|].
    + unfold setf, hooi_factor. rewrite LC. fold o. auto.
    + destruct (Nat.eqb_spec (i + 1) o); auto. replace i with (o - 1)%nat by lia. auto.
  - apply ttmc_wf.
  - rewrite ttmc_order. fold o. lia.
  - rewrite ttmc_order. auto.
  - unfold order. rewrite LC, LR. auto.
Qed.

Lemma hooi_upto_uptow n W : hooi_upto (svd LA) V ranks n W = uptow (hooi_factor (svd LA) V ranks) n W.
Proof. reflexivity. Qed.
Lemma Yend_lens W W' : tucker_ok V W ranks -> tucker_ok V W' ranks -> ttmc_lens V W (others (o - 1) o) = ttmc_lens V W' (others (o - 1) o).
Proof. intros. rewrite <- !Y_lens by (auto; lia). auto. Qed.

Theorem DT_sweep_ok (core : tensor N) W Y_end : lens core = ranks -> tucker_ok V W ranks ->
  lens Y_end = ttmc_lens V W (others (o - 1) o) ->
  exists Y_end', Tucker_DT_sweep LA fuel parent sibling V core (lbuf o) (W, Y_end, ranks, lbuf o)
    = Ok (tucker_core V (hooi_sweep (svd LA) V ranks W), (hooi_sweep (svd LA) V ranks W, Y_end', ranks, lbuf o)) /\
      lens Y_end' = lens Y_end.
Proof.
  intros LC HW HY. unfold Tucker_DT_sweep. fold o. set (f := hooi_factor (svd LA) V ranks).
  assert (Hf : forall W i, tucker_ok V W ranks -> (i < o)%nat -> is_mat (f W i) (nth i (lens V) 0%nat) (nth i ranks 0%nat)).
  { intros W1 i _ Hi. apply hooi_factor_mat; auto. }
  assert (HU : forall n, (n <= o)%nat -> tucker_ok V (uptow f n W) ranks) by (intros; apply uptow_ok; auto).
  destruct (for_inv (fun i st => exists mp' Y', st = (uptow f i W, mp', Y', ranks, lbuf o) /\ ttable_ok (uptow f i W) i mp' /\
      lens Y' = ttmc_lens V W (others (o - 1) o) /\ (i = o -> Y' = ttmc V (uptow f (o - 1) W) (others (o - 1) o)))
     (Tucker_DT_mode LA fuel parent sibling V core (lbuf o)) 0 o (W, sempty, Y_end, ranks, lbuf o)) as (st & E & mp' & Y' & -> & _ & HL & HY').
  - lia.
  - exists sempty, Y_end. split; [reflexivity|]. split; [apply ttable_empty|]. split; auto. lia.
  - intros i st Hi (mp' & Y' & -> & Ht & HL & _).
    destruct (DT_mode_ok core (uptow f i W) mp' Y' i) as (mp2 & E & Hv & Hnew); auto; try lia.
    + apply HU. lia.
    + apply ttable_valid; auto.
    + rewrite HL. apply Yend_lens; auto. apply HU. lia.
    + rewrite E. eexists. split; [reflexivity|]. exists mp2. eexists. split; [rewrite uptow_S; reflexivity|]. split; [|split].
      * rewrite uptow_S. eapply ttable_next; eauto; [apply HU; lia|lia].
      * destruct (Nat.eqb (i + 1) o); auto. cbn [ttmc tabulate lens]. apply Yend_lens; auto. apply HU. lia.
      * intros Ei. rewrite (proj2 (Nat.eqb_eq _ _)) by lia. f_equal. f_equal. lia.
  - unfold tk_sweep in *. rewrite E. cbn [bind]. exists Y'. rewrite (HY' eq_refl).
    rewrite end_core_ok; auto.
    + cbn [bind]. split; [reflexivity|]. rewrite HY. cbn [ttmc tabulate lens]. apply Yend_lens; auto. apply HU. lia.
    + apply HU. lia.
    + intros m Hm. replace o with (S (o - 1))%nat at 1 by lia. rewrite uptow_S.
      assert (LU : length (uptow f (o - 1) W) = o) by (apply HU; lia).
      rewrite fac_setf by (rewrite LU; lia). destruct (Nat.eqb_spec m (o - 1)); [lia|auto].
Qed.

(** the sweep of the regular phase of the pairwise-perturbation driver *)
Definition alf (P : list (tensor N)) (W : list (tensor N)) (n : nat) : tensor N := aligned (hooi_factor (svd LA) V ranks W n) (fac P n).
Lemma ncols_ok (W : list (tensor N)) n : (n <= length W)%nat -> ncols W n = Ok (map (fun m => ncol (fac W m)) (seq 0 n)).
Proof using .
  clear. intros Hn. unfold ncols.
  destruct (for_inv (fun j ls => ls = map (fun m => ncol (fac W m)) (seq 0 j)) (fun m ls => Wm <- lget W m ;; Ok (ls ++ [ncol Wm])) 0 n [])
    as (ls & E & ->); auto.
  - lia.
  - intros j ls Hj ->. rewrite (lget_ok W j tnil) by lia. cbn [bind]. eexists. split; [reflexivity|]. rewrite seq_S, map_app. auto.
Qed.
Lemma ncols_ranks W : tucker_ok V W ranks -> ncols W o = Ok ranks.
Proof using Ho Hr.
  clear fuel parent sibling Hfuel Htree Hgood.
  intros (HV & LW & LR & HM). rewrite ncols_ok by (rewrite LW; auto). f_equal. apply nth_eq_ext with (d:=0%nat); [rewrite map_length, seq_length; auto|].
  intros m Hm. rewrite map_length, seq_length in Hm. rewrite (nth_map_lt _ _ _ 0%nat) by (rewrite seq_length; auto). rewrite nth_seq by auto.
  apply (mat_ncol _ _ _ (HM m Hm)).
Qed.
Lemma mk_Yend_ok W : tucker_ok V W ranks -> mk_Yend V W = Ok (zeros (ttmc_lens V W (others (o - 1) o))).
Proof using Ho Hr.
  clear fuel parent sibling Hfuel Htree Hgood.
  intros HW. unfold mk_Yend. fold o. rewrite ncols_ranks by auto. cbn [bind].
  rewrite (lget_ok _ _ 0%nat) by (fold (order V); fold o; lia). cbn [bind]. rewrite lput_ok by (rewrite ranks_len; lia). cbn [bind].
  rewrite (Y_lens W) by (auto; lia). auto.
Qed.
Lemma svd_S_shape i W : (i < o)%nat ->
  let '(_, Sg, _) := svd LA (unfold_gram (ttmc V W (others i o)) i) (nth i ranks 0%nat) in lens Sg = [nth i ranks 0%nat] /\ wf Sg.
Proof.
  intros Hi. pose proof (Hsvd _ _ (nth i ranks 0%nat) (unfold_gram_mat (ttmc V W (others i o)) i)) as H.
  rewrite Y_nth in H by auto. specialize (H (proj2 Hr i Hi)).
  destruct (svd LA (unfold_gram (ttmc V W (others i o)) i) (nth i ranks 0%nat)) as [[U Sg] VT]. tauto.
Qed.

Lemma sub_mode_ok (core : tensor N) P W mp Y_end i : lens core = ranks -> tucker_ok V W ranks -> tucker_ok V P ranks -> (i < o)%nat -> tvalid V W i mp ->
  lens Y_end = ttmc_lens V W (others (o - 1) o) ->
  exists mp', Tucker_sub_mode LA fuel parent sibling V core P (lbuf o) i (W, mp, Y_end, lbuf o)
    = Ok (setf W i (alf P W i), mp',
          if Nat.eqb (i + 1) o then ttmc V W (others (o - 1) o) else Y_end, lbuf o) /\ tvalid V W i mp' /\
    (forall s T, mp' s = Some T -> mp s = Some T \/ exists x' y', (x' <= i <= y')%nat /\ (y' < o)%nat /\ s = range_str x' y').
Proof.
  intros LC HW HP Hi Hv HY. pose proof HW as (HV & LW & LR & HM). unfold Tucker_sub_mode. fold o.
  rewrite ncols_ranks by auto. cbn [bind].
  rewrite (lget_ok (lens V) i 0%nat) by auto. cbn [bind].
  rewrite lput_ok by (rewrite LR; auto). cbn [bind].
  destruct (tree_Y W i mp HW Hi Hv) as (mp' & E & Hv' & Hnew). rewrite E. cbn [bind].
  exists mp'. split; [|auto]. rewrite save_Yend_ok; auto; [|apply ttmc_wf|apply ttmc_order|].
  2:{ intros Ei. rewrite HY. replace i with (o - 1)%nat by lia. auto. }
  cbn [bind]. rewrite tk_svd_ok.
  - cbn [bind]. rewrite LC. pose proof (svd_S_shape i W Hi) as HS. fold o.
    rewrite (lget_ok P i tnil) by (destruct HP as (_ & -> & _); auto). cbn [bind]. fold (fac P i).
    pose proof (hooi_factor_mat W i Hi) as HU. unfold hooi_factor in HU. fold o in HU.
    rewrite (sign_align_ok RL _ _ _ (nth i (lens V) 0%nat) (nth i ranks 0%nat)); auto.
    + cbn [bind]. rewrite lput_ok by (rewrite LW; auto). cbn [bind]. f_equal. f_equal. f_equal.
      destruct (Nat.eqb_spec (i + 1) o); auto. replace i with (o - 1)%nat by lia. auto.
    + apply HP. auto.
    + destruct (svd LA _ _) as [[? Sg] ?]. apply HS.
    + destruct (svd LA _ _) as [[? Sg] ?]. apply HS.
  - apply ttmc_wf.
  - rewrite ttmc_order. fold o. lia.
  - rewrite ttmc_order. auto.
  - unfold order. rewrite LC, LR. auto.
Qed.
Theorem sub_sweep_ok (core : tensor N) P W Y_end : lens core = ranks -> tucker_ok V W ranks -> tucker_ok V P ranks ->
  lens Y_end = ttmc_lens V W (others (o - 1) o) ->
  exists Y_end', Tucker_sub_sweep LA fuel parent sibling V core P (lbuf o) (W, Y_end, lbuf o)
    = Ok (tucker_core V (hooi_aligned_upto (svd LA) V ranks P o W), (hooi_aligned_upto (svd LA) V ranks P o W, Y_end', lbuf o)) /\
      lens Y_end' = lens Y_end.
Proof.
  intros LC HW HP HY. unfold Tucker_sub_sweep. fold o. set (f := alf P).
  change (hooi_aligned_upto (svd LA) V ranks P o W) with (uptow f o W).
  assert (Hf : forall W i, tucker_ok V W ranks -> (i < o)%nat -> is_mat (f W i) (nth i (lens V) 0%nat) (nth i ranks 0%nat)).
  { intros W1 i _ Hi. apply aligned_mat. apply hooi_factor_mat; auto. }
  assert (HU : forall n, (n <= o)%nat -> tucker_ok V (uptow f n W) ranks) by (intros; apply uptow_ok; auto).
  destruct (for_inv (fun i st => exists mp' Y', st = (uptow f i W, mp', Y', lbuf o) /\ ttable_ok (uptow f i W) i mp' /\
      lens Y' = ttmc_lens V W (others (o - 1) o) /\ (i = o -> Y' = ttmc V (uptow f (o - 1) W) (others (o - 1) o)))
     (Tucker_sub_mode LA fuel parent sibling V core P (lbuf o)) 0 o (W, sempty, Y_end, lbuf o)) as (st & E & mp' & Y' & -> & _ & HL & HY').
  - lia.
  - exists sempty, Y_end. split; [reflexivity|]. split; [apply ttable_empty|]. split; auto. lia.
  - intros i st Hi (mp' & Y' & -> & Ht & HL & _).
    destruct (sub_mode_ok core P (uptow f i W) mp' Y' i) as (mp2 & E & Hv & Hnew); auto; try lia.
    + apply HU. lia.
    + apply ttable_valid; auto.
    + rewrite HL. apply Yend_lens; auto. apply HU. lia.
    + rewrite E. eexists. split; [reflexivity|]. exists mp2. eexists. split; [rewrite uptow_S; reflexivity|]. split; [|split].
      * rewrite uptow_S. eapply ttable_next; eauto; [apply HU; lia|lia].
      * destruct (Nat.eqb (i + 1) o); auto. cbn [ttmc tabulate lens]. apply Yend_lens; auto. apply HU. lia.
      * intros Ei. rewrite (proj2 (Nat.eqb_eq _ _)) by lia. f_equal. f_equal. lia.
  - rewrite E. cbn [bind]. exists Y'. rewrite (HY' eq_refl).
    rewrite end_core_ok; auto.
    + cbn [bind]. split; [reflexivity|]. rewrite HY. cbn [ttmc tabulate lens]. apply Yend_lens; auto. apply HU. lia.
    + apply HU. lia.
    + intros m Hm. replace o with (S (o - 1))%nat at 1 by lia. rewrite uptow_S.
      assert (LU : length (uptow f (o - 1) W) = o) by (apply HU; lia).
      rewrite fac_setf by (rewrite LU; lia). destruct (Nat.eqb_spec m (o - 1)); [lia|auto].
Qed.
End DT.

(** the plain sweep *)
Theorem plain_sweep_ok (core : tensor N) W : (o <= 10)%nat -> lens core = ranks -> tucker_ok V W ranks ->
  for_ 0 o (alsTucker_mode LA V core) W = Ok (hooi_sweep (svd LA) V ranks W).
Proof.
  intros Ho10 LC HW. set (f := hooi_factor (svd LA) V ranks).
  assert (HU : forall n, (n <= o)%nat -> tucker_ok V (uptow f n W) ranks).
  { intros n Hn. apply uptow_ok; auto. intros W1 i _ Hi. apply hooi_factor_mat; auto. }
  destruct (for_inv (fun i W' => W' = uptow f i W) (alsTucker_mode LA V core) 0 o W) as (W' & E & ->); auto; try lia.
  - intros i W' Hi ->. pose proof (HU i ltac:(lia)) as HWi. pose proof HWi as (_ & LW & LR & _).
    unfold alsTucker_mode. rewrite (TTMc_ok RL tnil V (uptow f i W) (Some i)).
    + cbn [bind contracted_modes]. fold o. rewrite tk_svd_ok.
      * cbn [bind]. rewrite lput_ok by (rewrite LW; auto; fold o; lia). eexists. split; [reflexivity|]. rewrite uptow_S.
        unfold setf, f at 3, hooi_factor. rewrite LC. auto.
      * apply ttmc_wf.
      * rewrite ttmc_order. fold o. lia.
      * rewrite ttmc_order. fold o. lia.
      * unfold order. rewrite LC, LR. fold o. lia.
    + eapply tucker_shapes; eauto.
    + auto.
    + cbn [contracted_modes]. fold o. intros E. assert (Hin : In (if Nat.eqb i 0 then 1%nat else 0%nat) (others i o)).
      { apply others_in. destruct (Nat.eqb_spec i 0); lia. }
      rewrite E in Hin. destruct Hin.
Qed.
End P.
