(** Tucker pairwise perturbation: the perturbed TTMc and the approximate sweep *)
From Coq Require Import List ZArith Lia Bool Arith Permutation Ring.
From Verif Require Import Base Num Tensor Spec Spec7 MCommon MCP MTucker PBase PTensor PSum PMttkrp PPart PMat PKhatri PGrad PKhatriBad PDT PDTSweep PALS PDrivers PTree PBuildV PPP
  PTtm PTucker PHosvd PTDT PSign PTSweep PTDrivers PTPP.
Import ListNotations.

Section P.
Context {N : num} (RL : ring_laws N) (LA : lapack N).
Let RT : ring_theory (@n0 N) n1 nadd nmul nsub nopp (@eq N) := RL.
Add Ring NringPP2 : RT.
Local Open Scope num_scope.
Context (V : tensor N) (ranks : list nat).
Let o := order V.
Hypothesis Ho : (2 <= o <= 18)%nat.
Hypothesis Hr : ranks_ok (lens V) ranks.

(** the increments have the shapes of the factors *)
Definition dW_ok (dW : list (tensor N)) : Prop :=
  length dW = o /\ forall m, (m < o)%nat -> is_mat (fac dW m) (nth m (lens V) 0%nat) (nth m ranks 0%nat).

Definition ppacc (W0 dW : list (tensor N)) (i : nat) (l : list nat) : tensor N :=
  tabulate (ttmc_lens V W0 (others i o))
    (fun idx => at_ (ttmc V W0 (others i o)) idx + bigsum l (fun m => at_ (ttmc V (setf W0 m (fac dW m)) (others i o)) idx)).

Lemma ppacc_nil W0 dW i : ppacc W0 dW i [] = ttmc V W0 (others i o).
Proof.
  apply tensor_ext; [apply tabulate_wf|apply ttmc_wf|reflexivity|]. intros idx Hi. unfold ppacc. rewrite at_tabulate by auto. cbn. ring.
Qed.
Lemma ppacc_snoc W0 dW i l m : tadd (ppacc W0 dW i l) (ttmc V (setf W0 m (fac dW m)) (others i o)) = ppacc W0 dW i (l ++ [m]).
Proof.
  apply tensor_ext; [apply tabulate_wf|apply tabulate_wf|reflexivity|]. intros idx Hi. unfold tadd. rewrite at_tabulate by auto.
  unfold ppacc. rewrite !at_tabulate by auto. rewrite (bigsum_app RL). cbn. ring.
Qed.

Lemma pp_add_ok W0 dW (mp : smap (tensor N)) i m args l : tucker_ok V W0 ranks -> dW_ok dW -> (m < o)%nat -> (i < o)%nat -> m <> i ->
  (exists ms, tget mp args = ttmc V W0 ms /\ ~ In m ms /\ Permutation (m :: ms) (others i o)) ->
  (D <- lget dW m ;; seq_Y <- bset (lbuf o) m ch_star ;;
   sY <- take (order (ppacc W0 dW i l)) seq_Y ;; sT <- take (order (tget mp args)) (lbuf o) ;; sD <- take (order D) (lit [chr m; ch_star]) ;;
   Y <- assign true (ppacc W0 dW i l) sY [prodt [(tget mp args, sT); (D, sD)]] ;; seq_Y <- bset seq_Y m (chr m) ;; Ok (Y, seq_Y))
  = Ok (ppacc W0 dW i (l ++ [m]), lbuf o).
Proof.
  intros HW (LD & HD) Hm Hi Hn (ms & Et & Hni & Hp). pose proof HW as (HV & LW & LR & HM).
  rewrite (lget_ok dW m tnil) by lia. cbn [bind]. fold (fac dW m). rewrite lbuf_sb. rewrite sb_bset by (rewrite letters_len; auto). cbn [bind].
  assert (LY : lens (ppacc W0 dW i l) = ttmc_lens V W0 (others i o)) by reflexivity.
  assert (OY : order (ppacc W0 dW i l) = o) by (unfold order; rewrite LY; apply ttmc_lens_length).
  rewrite OY. rewrite sb_take by (rewrite lset_length, letters_len; auto). cbn [bind].
  rewrite Et. rewrite ttmc_order. fold o. rewrite sb_take by (rewrite letters_len; auto). cbn [bind].
  rewrite (mat_order _ _ _ (HD m Hm)), lit_sb, sb_take by auto. cbn [bind].
  set (W1 := setf W0 m (fac dW m)).
  assert (F1 : fac W1 m = fac dW m) by (unfold W1; rewrite fac_setf by (rewrite LW; auto); rewrite Nat.eqb_refl; auto).
  assert (HW1 : tucker_ok V W1 ranks) by (apply setf_tucker; auto).
  assert (E1 : ttmc V W0 ms = ttmc V W1 ms).
  { apply ttmc_ext. intros x Hx. unfold W1. rewrite fac_setf by (rewrite LW; auto). destruct (Nat.eqb_spec x m) as [->|]; auto. contradiction. }
  rewrite E1. rewrite <- F1. unfold o.
  rewrite (ttm_step RL true _ V W1 ms m ch_star); auto.
  - cbn [bind]. fold o. rewrite sb_bset by (rewrite lset_length, letters_len; auto). cbn [bind].
    rewrite lset_lset. replace (chr m) with (nth m (letters chr o) 0%Z) by (apply letters_nth; auto). rewrite lset_self.
    rewrite (ttmc_perm RL V W1 _ _ Hp). unfold W1. rewrite ppacc_snoc. auto.
  - eapply tucker_shapes; eauto.
  - fold o. lia.
  - apply star_fresh. fold o. lia.
  - rewrite LY. rewrite <- ttmc_cons_lens by auto.
    transitivity (ttmc_lens V W1 (others i o)).
    + unfold o. rewrite <- !(Y_lens V ranks Ho) by auto. auto.
    + change (ttmc_lens V W1 (others i o)) with (lens (ttmc V W1 (others i o))). rewrite <- (ttmc_perm RL V W1 _ _ Hp). reflexivity.
Qed.

(** the operators of the table *)
Definition ops_ok (W0 : list (tensor N)) (mp : smap (tensor N)) : Prop :=
  (forall i j, (i < j)%nat -> (j < o)%nat -> mp (map chr (outside [i; j] o)) = Some (ttmc V W0 (outside [i; j] o))) /\
  (forall i, (i < o)%nat -> mp (map chr (outside [i] o)) = Some (ttmc V W0 (outside [i] o))).

Lemma pair_perm i j : (i < j)%nat -> (j < o)%nat ->
  Permutation (i :: outside [i; j] o) (others j o) /\ Permutation (j :: outside [i; j] o) (others i o).
Proof.
  intros Hi Hj. split; (apply NoDup_Permutation; [constructor; [rewrite outside_in; cbn [In]; tauto|apply outside_nodup]|apply others_nodup|]);
   intros m; rewrite others_in; cbn [In]; rewrite outside_in; cbn [In]; clear - Hi Hj;
   (destruct (Nat.eq_dec i m) as [E1|E1]; [|destruct (Nat.eq_dec j m) as [E2|E2]]); try subst m; split; intros Hx; intuition lia.
Qed.

Theorem pp_Y_ok W0 dW (mp : smap (tensor N)) i : tucker_ok V W0 ranks -> dW_ok dW -> ops_ok W0 mp -> (i < o)%nat ->
  pp_Y V mp (lbuf o) (lbuf o) dW i = Ok (pp_ttmc V W0 dW i, lbuf o).
Proof.
  intros HW HD (Hop2 & Hop1) Hi. unfold pp_Y. fold o. rewrite except1_ok by lia. cbn [bind].
  assert (E0 : tget mp (map chr (outside [i] o)) = ppacc W0 dW i []).
  { unfold tget. rewrite Hop1 by auto. rewrite outside_one, ppacc_nil. auto. }
  rewrite E0.
  match goal with |- context [for_ 0 i ?f ?s] => destruct (for_inv (fun k st => st = (ppacc W0 dW i (seq 0 k), lbuf o)) f 0 i s) as (st & E & ->) end.
  - lia.
  - reflexivity.
  - intros m st Hm ->. rewrite except2_ok by lia. cbn [bind]. eexists. split; [|reflexivity].
    rewrite (seq_S m 0). apply pp_add_ok; auto; try lia.
    exists (outside [m; i] o). split; [unfold tget; rewrite Hop2 by lia; auto|]. split; [rewrite outside_in; cbn [In]; tauto|].
    apply pair_perm; lia.
  - rewrite E. cbn [bind]. clear E.
    match goal with |- context [for_ (i + 1) o ?f ?s] =>
      destruct (for_inv (fun k st => st = (ppacc W0 dW i (seq 0 i ++ seq (i + 1) (k - i - 1)), lbuf o)) f (i + 1) o s) as (st & E & ->) end.
    + lia.
    + replace (i + 1 - i - 1)%nat with 0%nat by lia. cbn [seq]. rewrite app_nil_r. auto.
    + intros m st Hm ->. rewrite except2_ok by lia. cbn [bind]. eexists. split; [|reflexivity].
      replace (S m - i - 1)%nat with (S (m - i - 1)) by lia. rewrite (seq_S (m - i - 1)).
      replace (i + 1 + (m - i - 1))%nat with m by lia. rewrite app_assoc. apply pp_add_ok; auto; try lia.
      exists (outside [i; m] o). split; [unfold tget; rewrite Hop2 by lia; auto|]. split; [rewrite outside_in; cbn [In]; tauto|].
      apply pair_perm; lia.
    + rewrite E. f_equal. f_equal. unfold pp_ttmc, ppacc. fold o. rewrite <- outside1 by lia. rewrite outside_one. auto.
Qed.

Lemma end_core_gen (core Y_end : tensor N) W : lens core = ranks -> tucker_ok V W ranks ->
  lens Y_end = ttmc_lens V W (others (o - 1) o) -> wf Y_end ->
  end_core o (lbuf o) core Y_end W = Ok (ttm Y_end (fac W (o - 1)) (o - 1)).
Proof.
  intros LC HW LY WY. pose proof HW as (HV & LW & LR & HM).
  assert (OY : order Y_end = o) by (unfold order; rewrite LY; apply ttmc_lens_length).
  unfold end_core, mk_ends.
  destruct (fill_for 0 o (fun j b => bset b j (chr j)) 0 (fun j => chr j) (newbuf (o + 1)) (o + 1)) as (b & Eb & Lb & Pb).
  { apply newbuf_length. } { lia. } { intros m c Hm Hc. f_equal; lia. }
  unfold fill_letters. rewrite Eb. cbn [bind]. rewrite (proj2 (Nat.eqb_neq _ _)) by lia. rewrite bset_ok by lia. cbn [bind].
  rewrite (lget_ok W (o - 1) tnil) by (rewrite LW; fold o; lia). cbn [bind]. fold (fac W (o - 1)).
  set (s := letters chr o).
  assert (Ls : length s = o) by apply letters_len.
  rewrite (assign_b_ok _ _ _ s [(Y_end, lset s (o - 1) ch_star); (fac W (o - 1), [ch_star; chr (o - 1)])]).
  2:{ assert (order core = o) as -> by (unfold order; rewrite LC; auto). apply lbuf_take. }
  2:{ apply tixs2.
      - rewrite OY. apply take_list with (d:=0%Z); [rewrite lset_length; auto|].
        intros j Hj. rewrite lset_nth_error. destruct (Nat.eqb_spec j (o - 1)) as [->|Hn].
        + rewrite (proj2 (Nat.ltb_lt _ _)) by lia. rewrite lset_same by lia. auto.
        + rewrite lset_other by auto. rewrite Pb. cbn [Nat.leb andb]. rewrite (proj2 (Nat.ltb_lt _ _)) by lia.
          f_equal. f_equal. unfold s. rewrite letters_nth by lia. f_equal. lia.
      - rewrite lit_sb. apply sb_take. apply (mat_order _ _ _ (HM (o - 1)%nat ltac:(fold o; lia))). }
  set (s' := lset s (o - 1) ch_star).
  assert (Hsf : ~ In ch_star s) by (apply star_fresh; lia).
  assert (Hs : NoDup s) by (apply letters_chr_nodup; lia).
  assert (Es : s = lset s' (o - 1) (chr (o - 1))).
  { unfold s'. rewrite lset_lset. replace (chr (o - 1)) with (nth (o - 1) s 0%Z) by (apply letters_nth; lia). symmetry. apply lset_self. }
  assert (En : [ch_star; chr (o - 1)] = [nth (o - 1) s' 0%Z; chr (o - 1)]).
  { unfold s'. rewrite lset_same by lia. auto. }
  rewrite Es at 1. rewrite En.
  assert (HMl := HM (o - 1)%nat ltac:(fold o; lia)).
  rewrite (assign_ttm RL false); auto.
  - apply NoDup_lset; auto.
  - unfold s'. rewrite lset_length, OY. auto.
  - lia.
  - unfold s'. rewrite in_lset by (auto; lia). intros [E|[_ E]].
    + apply Hsf. rewrite <- E. rewrite <- (letters_nth chr o (o - 1) 0%Z) by lia. apply nth_In. lia.
    + apply E. symmetry. apply letters_nth. lia.
  - rewrite LY. change (ttmc_lens V W (others (o - 1) o)) with (lens (ttmc V W (others (o - 1) o))). unfold o. rewrite (Y_nth V Ho) by (fold o; lia).
    fold o. rewrite (mat_ncol _ _ _ HMl). auto.
  - rewrite LC, LY. unfold o. rewrite <- (Y_lens V ranks Ho) by (auto; fold o; lia). rewrite lset_lset. fold o.
    rewrite (mat_ncol _ _ _ HMl). symmetry. apply lset_self.
Qed.

Hypothesis Hsq : sqrt_nonneg (N := N).
Hypothesis Hsvd : svd_trunc_shaped (svd LA).

Lemma pp_ttmc_lens W0 dW i : lens (pp_ttmc V W0 dW i) = ttmc_lens V W0 (others i o).
Proof. reflexivity. Qed.
Lemma pp_ttmc_nth W0 dW i : (i < o)%nat -> nth i (lens (pp_ttmc V W0 dW i)) 0%nat = nth i (lens V) 0%nat.
Proof. intros Hi. rewrite pp_ttmc_lens. apply (Y_nth V Ho W0 i Hi). Qed.
Lemma pp_ttmc_order W0 dW i : order (pp_ttmc V W0 dW i) = o.
Proof. unfold order. rewrite pp_ttmc_lens. apply ttmc_lens_length. Qed.

(** the factor of one step *)
Definition tppU (W0 dW : list (tensor N)) (i : nat) : tensor N :=
  aligned (lsv (svd LA) (unfold_gram (pp_ttmc V W0 dW i) i) (nth i ranks 0%nat)) (fac W0 i).
Lemma tpp_svd W0 dW i : (i < o)%nat ->
  let '(U, Sg, _) := svd LA (unfold_gram (pp_ttmc V W0 dW i) i) (nth i ranks 0%nat) in
  is_mat U (nth i (lens V) 0%nat) (nth i ranks 0%nat) /\ lens Sg = [nth i ranks 0%nat] /\ wf Sg.
Proof.
  intros Hi. pose proof (Hsvd _ _ (nth i ranks 0%nat) (unfold_gram_mat (pp_ttmc V W0 dW i) i)) as H.
  rewrite pp_ttmc_nth in H by auto. exact (H (proj2 Hr i Hi)).
Qed.
Lemma tppU_mat W0 dW i : (i < o)%nat -> is_mat (tppU W0 dW i) (nth i (lens V) 0%nat) (nth i ranks 0%nat).
Proof.
  intros Hi. apply aligned_mat. unfold lsv. pose proof (tpp_svd W0 dW i Hi) as H. destruct (svd LA _ _) as [[U Sg] VT]. apply H.
Qed.
Lemma msub_is_mat (A B : tensor N) r c : is_mat A r c -> is_mat (msub A B) r c.
Proof. intros (L & H). split; [rewrite <- L; reflexivity|apply tabulate_wf]. Qed.

Lemma PP_mode_ok (core : tensor N) mp W0 W dW Y_end i : lens core = ranks -> tucker_ok V W0 ranks -> tucker_ok V W ranks -> dW_ok dW -> ops_ok W0 mp ->
  (i < o)%nat -> lens Y_end = ttmc_lens V W0 (others (o - 1) o) ->
  Tucker_PP_mode LA V core mp W0 (lbuf o) i (W, dW, Y_end, lbuf o)
   = Ok (setf W i (tppU W0 dW i), setf dW i (msub (tppU W0 dW i) (fac W0 i)),
         if Nat.eqb (i + 1) o then pp_ttmc V W0 dW (o - 1) else Y_end, lbuf o).
Proof.
  intros LC HW0 HW HD Hops Hi HY. pose proof HW as (HV & LW & LR & HM). pose proof HD as (LD & HDm). pose proof HW0 as (_ & LW0 & _ & HM0).
  unfold Tucker_PP_mode. rewrite (pp_Y_ok W0 dW mp i) by auto. cbn [bind]. fold o.
  unfold o. rewrite (save_Yend_ok RL V Ho); auto.
  2:{ apply tabulate_wf. } 2:{ apply pp_ttmc_order. }
  2:{ fold o. intros Ei. rewrite HY, pp_ttmc_lens. replace i with (o - 1)%nat by lia. auto. }
  cbn [bind]. rewrite (tk_svd_ok RL LA Hsq); [|apply tabulate_wf|rewrite pp_ttmc_order; lia|rewrite pp_ttmc_order; auto|unfold order; rewrite LC, LR; auto].
  cbn [bind]. rewrite LC. pose proof (tpp_svd W0 dW i Hi) as HS.
  rewrite (lget_ok W0 i tnil) by (rewrite LW0; auto). cbn [bind]. fold (fac W0 i).
  rewrite (sign_align_ok RL _ _ _ (nth i (lens V) 0%nat) (nth i ranks 0%nat)).
  - cbn [bind]. fold (tppU W0 dW i). rewrite lput_ok by (rewrite LW; auto). cbn [bind].
    rewrite (lget_ok dW i tnil) by lia. cbn [bind]. fold (fac dW i).
    pose proof (tppU_mat W0 dW i Hi) as HU.
    rewrite (assign_diff RL).
    + cbn [bind]. rewrite lput_ok by (fold o; lia). cbn [bind]. f_equal. f_equal. f_equal.
      fold o. destruct (Nat.eqb_spec (i + 1) o); auto. replace i with (o - 1)%nat by lia. auto.
    + unfold sij. repeat constructor; cbn; intuition discriminate.
    + rewrite (mat_order _ _ _ HU). auto.
    + apply HU.
    + apply (HM0 i Hi).
    + destruct (HDm i Hi) as (-> & _), HU as (-> & _). auto.
    + destruct (HM0 i Hi) as (-> & _), HU as (-> & _). auto.
  - unfold lsv. destruct (svd LA _ _) as [[U Sg] VT]. apply HS.
  - apply HM0. auto.
  - destruct (svd LA _ _) as [[U Sg] VT]. apply HS.
  - destruct (svd LA _ _) as [[U Sg] VT]. apply HS.
Qed.

Lemma tpp_upto_S W0 n st : tpp_upto (svd LA) V ranks W0 (S n) st = tpp_update (svd LA) V ranks W0 (tpp_upto (svd LA) V ranks W0 n st) n.
Proof. unfold tpp_upto. rewrite seq_S, fold_left_app. reflexivity. Qed.
Lemma setf_dW_ok dW i A : dW_ok dW -> (i < o)%nat -> is_mat A (nth i (lens V) 0%nat) (nth i ranks 0%nat) -> dW_ok (setf dW i A).
Proof.
  intros (LD & HD) Hi HA. split; [rewrite setf_length; auto|]. intros m Hm. rewrite fac_setf by lia. destruct (Nat.eqb_spec m i) as [->|]; auto.
Qed.
Lemma tpp_upto_ok W0 n W dW : (n <= o)%nat -> tucker_ok V W ranks -> dW_ok dW ->
  let '(W', dW') := tpp_upto (svd LA) V ranks W0 n (W, dW) in tucker_ok V W' ranks /\ dW_ok dW'.
Proof.
  induction n; intros Hn HW HD; [split; auto|]. rewrite tpp_upto_S. specialize (IHn ltac:(lia) HW HD).
  destruct (tpp_upto (svd LA) V ranks W0 n (W, dW)) as [W' dW']. destruct IHn as (H1 & H2). cbn [tpp_update]. fold (tppU W0 dW' n).
  pose proof (tppU_mat W0 dW' n ltac:(lia)) as HU. split.
  - apply setf_tucker; auto.
  - apply setf_dW_ok; auto. apply msub_is_mat. auto.
Qed.

Theorem PP_sweep_ok (core : tensor N) mp W0 W dW Y_end : lens core = ranks -> tucker_ok V W0 ranks -> tucker_ok V W ranks -> dW_ok dW -> ops_ok W0 mp ->
  lens Y_end = ttmc_lens V W0 (others (o - 1) o) ->
  let '(Wa, dWa) := tpp_upto (svd LA) V ranks W0 (o - 1) (W, dW) in
  let '(W', dW') := tpp_upto (svd LA) V ranks W0 o (W, dW) in
  Tucker_PP_sweep LA V core mp W0 (lbuf o) (W, dW, Y_end, lbuf o)
   = Ok (ttm (pp_ttmc V W0 dWa (o - 1)) (fac W' (o - 1)) (o - 1), (W', dW', pp_ttmc V W0 dWa (o - 1), lbuf o)).
Proof.
  intros LC HW0 HW HD Hops HY. set (u n := tpp_upto (svd LA) V ranks W0 n (W, dW)).
  assert (Hu : forall n, (n <= o)%nat -> tucker_ok V (fst (u n)) ranks /\ dW_ok (snd (u n))).
  { intros n Hn. pose proof (tpp_upto_ok W0 n W dW Hn HW HD) as H. fold (u n) in H. destruct (u n). auto. }
  change (tpp_upto (svd LA) V ranks W0 (o - 1) (W, dW)) with (u (o - 1)%nat). change (tpp_upto (svd LA) V ranks W0 o (W, dW)) with (u o).
  destruct (for_inv (fun i st => exists Y', st = (fst (u i), snd (u i), Y', lbuf o) /\ lens Y' = ttmc_lens V W0 (others (o - 1) o) /\
       (i = o -> Y' = pp_ttmc V W0 (snd (u (o - 1)%nat)) (o - 1)))
     (Tucker_PP_mode LA V core mp W0 (lbuf o)) 0 o (W, dW, Y_end, lbuf o)) as (st & E & Y' & -> & HL & HY').
  - lia.
  - exists Y_end. split; [reflexivity|]. split; auto. lia.
  - intros i st Hi (Y' & -> & HL & _). destruct (Hu i ltac:(lia)) as (HWi & HDi).
    rewrite (PP_mode_ok core mp W0 (fst (u i)) (snd (u i)) Y' i) by (auto; lia).
    eexists. split; [reflexivity|]. exists (if Nat.eqb (i + 1) o then pp_ttmc V W0 (snd (u i)) (o - 1) else Y'). split; [|split].
    + replace (u (S i)) with (tpp_update (svd LA) V ranks W0 (u i) i) by (symmetry; apply tpp_upto_S). destruct (u i) as [Wi dWi]. reflexivity.
    + destruct (Nat.eqb (i + 1) o); auto.
    + intros Ei. rewrite (proj2 (Nat.eqb_eq _ _)) by lia. f_equal. f_equal. f_equal. lia.
  - unfold Tucker_PP_sweep. fold o. rewrite E. cbn [bind]. rewrite (HY' eq_refl). destruct (Hu o ltac:(lia)) as (HWo & _).
    destruct (u (o - 1)%nat) as [Wa dWa] eqn:Ea. destruct (u o) as [W' dW'] eqn:Eo. cbn [fst snd] in *.
    rewrite end_core_gen; auto.
    + rewrite pp_ttmc_lens. unfold o. rewrite <- !(Y_lens V ranks Ho) by (auto; fold o; lia). auto.
    + apply tabulate_wf.
Qed.
End P.
