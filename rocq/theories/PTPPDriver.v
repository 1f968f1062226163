(** The two phases of alsTucker_PP and its loop *)
From Coq Require Import List ZArith QArith Lia Bool Arith Permutation Ring.
From Verif Require Import Base Num Tensor Spec Spec2 Spec4 Spec7 Spec8 Spec9 MCommon MCP MTucker PBase PTensor PSum PMttkrp PPart PMat PKhatri PGrad PKhatriBad PDT PDTSweep PALS PDrivers PTree PBuildV PPP
  PPPDriver PTtm PTucker PHosvd PTDT PSign PTSweep PTDrivers PTPP PTPP2 PMatAlg PSolve PNormalize PPPSweep.
Import ListNotations.
Local Close Scope Q_scope.

Lemma cnt_S p n : count p (S n) = (count p n + (if p n then 1 else 0))%nat.
Proof. unfold count. rewrite seq_S, filter_app, app_length. cbn. destruct (p n); cbn; lia. Qed.
Lemma cnt_full p n : count p n = n -> forall m, (m < n)%nat -> p m = true.
Proof.
  induction n; intros E m Hm; [lia|]. rewrite cnt_S in E. assert (H : (count p n <= n)%nat).
  { unfold count. rewrite <- (seq_length n 0) at 2. clear. induction (seq 0 n); cbn; [lia|]. destruct (p a); cbn; lia. }
  destruct (p n) eqn:Ep; [|lia]. destruct (Nat.eq_dec m n); [subst; auto|]. apply IHn; lia.
Qed.
Lemma cnt_zero p n : (forall m, (m < n)%nat -> p m = false) -> count p n = 0%nat.
Proof. induction n; intros H; [reflexivity|]. rewrite cnt_S, IHn, H by (auto; intros; apply H; lia). auto. Qed.

Section P.
Context {N : num} (RL : ring_laws N) (LA : lapack N).
Let RT : ring_theory (@n0 N) n1 nadd nmul nsub nopp (@eq N) := RL.
Add Ring NringTPD : RT.
Local Open Scope num_scope.
Context (V : tensor N) (ranks : list nat).
Let o := order V.
Hypothesis Ho : (2 <= o <= 10)%nat.
Hypothesis Hr : ranks_ok (lens V) ranks.
Hypothesis Hsq : sqrt_nonneg (N := N).
Hypothesis Hsvd : svd_trunc_shaped (svd LA).
Local Lemma H18 : (2 <= order V <= 18)%nat. Proof. fold o. lia. Qed.

Lemma zfacs_ok : dW_ok V ranks (zfacs V ranks).
Proof.
  split; [unfold zfacs; rewrite map_length, seq_length; auto|]. intros m Hm. unfold zfacs. rewrite fac_map_seq by auto.
  split; [reflexivity|apply tabulate_wf].
Qed.
Lemma tucker_dW W : tucker_ok V W ranks -> dW_ok V ranks W.
Proof. intros (_ & H1 & _ & H2). split; auto. Qed.
Lemma dW_tucker W W' : tucker_ok V W ranks -> dW_ok V ranks W' -> tucker_ok V W' ranks.
Proof. intros (H1 & _ & H2 & _) (H3 & H4). split; auto. Qed.
Lemma tmk_dW_ok W : tucker_ok V W ranks -> mk_dW W o = Ok (zfacs V ranks).
Proof.
  intros (HV & LW & LR & HM). unfold mk_dW.
  destruct (for_inv (fun j (D : list (tensor N)) => D = map (fun m => zeros [nth m (lens V) 0%nat; nth m ranks 0%nat]) (seq 0 j))
     (fun j acc => Wj <- lget W j ;; D <- assign false (zeros [nrow Wj; ncol Wj]) sij [mkTerm n0 []] ;; Ok (acc ++ [D])) 0 o []) as (D & E & HD).
  - lia.
  - reflexivity.
  - intros j D Hj ->. rewrite (lget_ok W j tnil) by (rewrite LW; fold o; lia). cbn [bind]. fold (fac W j).
    assert (X := HM j ltac:(fold o; lia)). rewrite (mat_nrow _ _ _ X), (mat_ncol _ _ _ X).
    rewrite (assign_zero RL _ (nth j (lens V) 0%nat) (nth j ranks 0%nat)) by reflexivity. cbn [bind]. eexists; split; [reflexivity|].
    rewrite seq_S, map_app. reflexivity.
  - rewrite E, HD. reflexivity.
Qed.
Definition tchanged (W Wp : list (tensor N)) : list (tensor N) := map (fun m => msub (fac W m) (fac Wp m)) (seq 0 o).
Lemma tchanged_ok W Wp : dW_ok V ranks W -> dW_ok V ranks (tchanged W Wp).
Proof.
  intros [HL H]. split; [unfold tchanged; rewrite map_length, seq_length; auto|]. intros m Hm. unfold tchanged. rewrite fac_map_seq by auto.
  apply msub_mat'. auto.
Qed.
Lemma tdw_update_ok tol_init W dW Wp : dW_ok V ranks W -> dW_ok V ranks dW -> dW_ok V ranks Wp ->
  dw_update o tol_init W dW Wp
  = Ok (tchanged W Wp, W, count (fun m => nltb (rel_change W (tchanged W Wp) m) tol_init) o).
Proof.
  intros [HWl HWm] [HDl HDm] [HPl HPm]. fold o in HWl, HDl, HPl, HWm, HDm, HPm. unfold dw_update.
  destruct (for_inv (fun j (st : (list (tensor N) * list (tensor N) * nat)%type) =>
      let '(D, P, c) := st in length D = o /\ length P = o /\ c = count (fun m => nltb (rel_change W (tchanged W Wp) m) tol_init) j /\
      forall m, (m < o)%nat -> fac D m = (if (m <? j)%nat then fac (tchanged W Wp) m else fac dW m) /\
                               fac P m = if (m <? j)%nat then fac W m else fac Wp m)
     (fun i st =>
      let '(dW, W_prev, cnt) := st in
      Wi <- lget W i ;; Pi <- lget W_prev i ;; Di <- lget dW i ;;
      Di <- assign false Di sij [mkTerm n1 [(Wi, sij)]; mkTerm (- n1) [(Pi, sij)]] ;;
      Pi <- assign false Pi sij [mkTerm n1 [(Wi, sij)]] ;;
      dW <- lput dW i Di ;;
      W_prev <- lput W_prev i Pi ;;
      let cnt := if nltb (nabs (norm2 Di / norm2 Wi)) tol_init then S cnt else cnt in
      Ok (dW, W_prev, cnt)) 0 o (dW, Wp, 0%nat)) as ([[D P] c] & E & H1 & H2 & H3 & H4).
  - lia.
  - repeat split; auto.
  - intros j [[D P] c] Hj (H1 & H2 & H3 & H4).
    rewrite (lget_ok W j tnil), (lget_ok P j tnil), (lget_ok D j tnil) by lia. cbn [bind]. fold (fac W j) (fac P j) (fac D j).
    destruct (H4 j ltac:(lia)) as [-> ->]. natcases.
    assert (HWj := HWm j ltac:(lia)). assert (HPj := HPm j ltac:(lia)).
    rewrite (assign_msub RL _ _ _ (nth j (lens V) 0%nat) (nth j ranks 0%nat)); auto; [|apply HDm; lia]. cbn [bind].
    rewrite (assign_copy RL _ _ (nth j (lens V) 0%nat) (nth j ranks 0%nat)); auto; [|apply HPj]. cbn [bind].
    rewrite !lput_ok by lia. cbn [bind]. eexists; split; [reflexivity|].
    assert (EC : fac (tchanged W Wp) j = msub (fac W j) (fac Wp j)) by (unfold tchanged; rewrite fac_map_seq by lia; auto).
    cbv beta iota zeta. rewrite !lset_length. split; auto. split; auto. split.
    + rewrite cnt_S, H3. cbv beta. replace (rel_change W (tchanged W Wp) j) with (nabs (norm2 (msub (fac W j) (fac Wp j)) / norm2 (fac W j)))
        by (unfold rel_change; rewrite EC; auto). destruct (nltb (nabs _) tol_init); lia.
    + intros m Hmo. fold (setf D j (msub (fac W j) (fac Wp j))) (setf P j (fac W j)). rewrite !fac_setf by lia.
      destruct (Nat.eqb_spec m j) as [->|]; natcases; auto; try (exfalso; lia); try (destruct (H4 m Hmo) as [-> ->]; natcases; auto).
  - etransitivity; [exact E|]. rewrite H3. f_equal. f_equal. f_equal.
    + apply (list_fac_ext _ _ o); auto. { unfold tchanged. rewrite map_length, seq_length. auto. }
      intros m Hm. destruct (H4 m Hm) as [-> _]. natcases. auto.
    + apply (list_fac_ext _ _ o); auto. intros m Hm. destruct (H4 m Hm) as [_ ->]. natcases. auto.
Qed.
Lemma tdw_count_ok tol_init W dW : dW_ok V ranks W -> dW_ok V ranks dW ->
  dw_count o tol_init W dW = Ok (count (fun m => nltb tol_init (rel_change W dW m)) o).
Proof.
  intros (HW & _) (HD & _). fold o in HW, HD. unfold dw_count.
  destruct (for_inv (fun j c => c = count (fun m => nltb tol_init (rel_change W dW m)) j)
     (fun i cnt => Wi <- lget W i ;; Di <- lget dW i ;;
      Ok (if nltb tol_init (nabs (norm2 Di / norm2 Wi)) then S cnt else cnt)) 0 o 0%nat) as (c & E & Hc).
  - lia.
  - reflexivity.
  - intros j c Hj ->. rewrite (lget_ok W j tnil), (lget_ok dW j tnil) by lia. cbn [bind].
    eexists; split; [reflexivity|]. rewrite cnt_S. cbv beta. fold (fac W j) (fac dW j). fold (rel_change W dW j). destruct (nltb tol_init (rel_change W dW j)); lia.
  - rewrite E, Hc. reflexivity.
Qed.

(** ** clocks, as in PPPDriver *)
Context (clk : nat -> N) (rank0 : bool) (limit : N).
Section Clock.
Context (J : nat -> N -> Prop) (b bench : bool).
Hypothesis J_measure : forall c s, J c s -> J (S (S (S c))) (s + (clk (S c) - clk c)).
Hypothesis J_test : forall c s, J c s -> J (S c) s /\ nltb limit (clk c - s) = b.
Hypothesis J_reset : bench = true -> forall c s, J c s -> J (S c) (clk c).
Let Jx (x : io (N:=N)) : Prop := J (ck x) (st_time x).

Lemma tmeasure_J (core prev : tensor N) W x : tucker_ok V W ranks -> Jx x ->
  exists x' dt, tk_measure clk V core prev W x = Ok (tucker_core V W, core_dist V W prev, tucker_resid V W, dt, x') /\ Jx x' /\ rows x' = rows x.
Proof.
  intros HW HJ. unfold tk_measure, check_begin, wtime. fold o. assert (Ho' : (2 <= order V <= 10)%nat) by auto.
  rewrite (core_TTMc RL clk V ranks) by auto. cbn [bind].
  assert (Et := transposes RL clk V ranks Ho' W HW). fold o in Et. rewrite Et. cbn [bind].
  rewrite (full_TTMc RL clk V ranks) by auto. cbn [bind]. rewrite mk_seqV_ok. cbn [bind].
  rewrite lbuf_take. cbn [bind]. unfold order at 1. rewrite (full_lens clk V ranks) by auto. fold (order V). fold o. rewrite lbuf_take. cbn [bind].
  pose proof HW as (HV & _).
  rewrite (assign_diff RL); auto.
  - cbn [bind]. unfold check_end, wtime, set_st. cbn [ck st_time rows]. eexists _, _. split; [reflexivity|]. split; [|reflexivity].
    unfold Jx. cbn [ck st_time]. apply J_measure. exact HJ.
  - apply letters_chr_nodup; lia.
  - rewrite letters_len. unfold order. rewrite (full_lens clk V ranks) by auto. auto.
  - apply tabulate_wf.
  - rewrite (full_lens clk V ranks) by auto. auto.
  - rewrite (full_lens clk V ranks) by auto. auto.
Qed.
Lemma temit_J x r : Jx x -> Jx (emit rank0 x r).
Proof. unfold emit. destruct rank0; auto. Qed.
Lemma tstop_test_J pn tol x : Jx x -> exists x', stop_test clk pn tol limit x = (nltb pn tol || b, x') /\ Jx x'.
Proof.
  intros HJ. unfold stop_test, wtime. destruct (nltb pn tol); [eauto|]. cbn. destruct (J_test _ _ HJ) as [H1 H2]. rewrite H2. eauto.
Qed.

Definition tok (k : tk_state (N:=N)) : Prop :=
  tucker_ok V (kW k) ranks /\ lens (kcore k) = ranks /\ lens (kprev k) = ranks /\ dW_ok V ranks (kdW k) /\ Jx (kio k).

Lemma tcopy prev W : tucker_ok V W ranks -> lens prev = ranks -> copy_core prev (tucker_core V W) (lbuf o) = Ok (tucker_core V W).
Proof.
  intros HW HP. apply (copy_core_ok RL clk V).
  - auto.
  - apply tabulate_wf.
  - apply (core_order V ranks). auto.
  - rewrite HP. symmetry. apply (core_lens clk V ranks); auto.
Qed.
Lemma Tucker_DT_check_J tol iter (k : tk_state (N:=N)) : tok k ->
  exists x', Tucker_DT_check clk rank0 V tol limit false (lbuf o) iter k
   = Ok (nltb (core_dist V (kW k) (kprev k)) tol || b,
         mkTk (kW k) (tucker_core V (kW k)) (if nltb (core_dist V (kW k) (kprev k)) tol || b then kprev k else tucker_core V (kW k)) (kdW k)
              (core_dist V (kW k) (kprev k)) x') /\ Jx x'.
Proof.
  intros (HW & HC & HP & HD & HJ). unfold Tucker_DT_check.
  destruct (tmeasure_J (kcore k) (kprev k) (kW k) (kio k) HW HJ) as (x' & dt & Em & HJ' & _). rewrite Em. cbn [bind].
  match goal with |- context [tk_stop _ _ _ _ ?y] => destruct (tstop_test_J (core_dist V (kW k) (kprev k)) tol y) as (x2 & Es & HJ2); [apply temit_J; auto|] end.
  unfold tk_stop. rewrite Es. destruct (nltb (core_dist V (kW k) (kprev k)) tol || b).
  - eauto.
  - rewrite tcopy by auto. cbn [bind]. eauto.
Qed.

(** ** the exact phase *)
Section DT.
Context (tol tol_init : N) (maxiter resprint : Z) (fuel : nat).
Hypothesis Hgood : (o = 2 \/ o = 4 \/ 6 <= o)%nat.
Hypothesis Hf : (o < fuel)%nat.
Hypothesis Hres : resprint <> 0%Z.
Let dstep := aligned_sweep (svd LA) V ranks.
Definition tsmall (W dW : list (tensor N)) : Prop := forall m, (m < o)%nat -> nltb (rel_change W dW m) tol_init = true.
Definition tchk (iter : Z) : bool := (Z.eqb (Z.rem iter resprint) 0 && negb (Z.eqb iter 0)) || Z.eqb iter 1 || Z.eqb iter maxiter.
Lemma tchk_ok iter : tk_checks iter maxiter resprint = Ok (tchk iter).
Proof. unfold tk_checks, zmod. destruct (Z.eqb_spec resprint 0); [contradiction|]. reflexivity. Qed.

Lemma aligned_tucker W P n : (n <= o)%nat -> tucker_ok V W ranks -> tucker_ok V (hooi_aligned_upto (svd LA) V ranks P n W) ranks.
Proof.
  intros Hn HW. apply (uptow_ok V ranks H18 (alf LA V ranks P)); auto. intros W1 i _ Hi. apply aligned_mat. apply hooi_factor_mat; auto using H18.
Qed.
Definition tlate (iter : Z) (k : nat) (prev0 prev : tensor N) : Prop :=
  b = true -> (forall j, (j < k)%nat -> tchk (iter + Z.of_nat j) = false) /\ prev = prev0.
Definition tdt_reach (iter : Z) (prev0 : tensor N) (W : list (tensor N)) (k : nat) (s : tk_sub (N:=N)) : Prop :=
  tok (sk s) /\ lens (syend s) = ttmc_lens V W (others (o - 1) o) /\ sseqY s = lbuf o /\ dW_ok V ranks (sprevW s) /\
  (kW (sk s), sprevW s) = Nat.iter k dstep (W, zfacs V ranks) /\
  (k <> 0%nat -> kdW (sk s) = tchanged (kW (sk s)) (snd (Nat.iter (k - 1) dstep (W, zfacs V ranks)))) /\
  tlate iter k prev0 (kprev (sk s)).

Theorem tDT_sub_run iter p : tok p -> (iter <= maxiter)%Z ->
  exists iter' p' k, alsTucker_DT_sub LA clk rank0 fuel V tol tol_init limit maxiter resprint iter p = Ok (iter', p') /\
    tok p' /\ kW p' = fst (Nat.iter k dstep (kW p, zfacs V ranks)) /\
    (k <> 0%nat -> kdW p' = tchanged (kW p') (snd (Nat.iter (k - 1) dstep (kW p, zfacs V ranks)))) /\
    tlate iter k (kprev p) (kprev p') /\
    ((iter' = iter + Z.of_nat k /\ iter' = maxiter + 1)%Z \/
     ((iter' = iter + Z.of_nat k /\ iter' <= maxiter)%Z /\ kdn p' = core_dist V (kW p') (kprev p') /\ nltb (kdn p') tol || b = true /\ tchk iter' = true) \/
     ((iter' + 1 = iter + Z.of_nat k /\ iter <= iter' <= maxiter)%Z /\ tsmall (kW p') (kdW p'))).
Proof.
  intros Hp Hit. unfold alsTucker_DT_sub. fold o. assert (Hp' := Hp). destruct Hp' as (HW & HC & HP & HD & HJ).
  pose proof HW as (HV & LW & LR & HM).
  destruct (for_inv (fun j (D : list (tensor N)) => D = map (fun m => zeros [nth m (lens V) 0%nat; nth m ranks 0%nat]) (seq 0 j))
     (fun i acc => Wi <- lget (kW p) i ;; Ok (acc ++ [zeros [nrow Wi; ncol Wi]])) 0 o []) as (Wp & EWp & HWp).
  { lia. } { reflexivity. }
  { intros j D Hj ->. rewrite (lget_ok (kW p) j tnil) by (rewrite LW; fold o; lia). cbn [bind]. fold (fac (kW p) j).
    assert (X := HM j ltac:(fold o; lia)). rewrite (mat_nrow _ _ _ X), (mat_ncol _ _ _ X). eexists; split; [reflexivity|].
    rewrite seq_S, map_app. reflexivity. }
  rewrite EWp. cbn [bind]. rewrite mk_seqV_ok. cbn [bind].
  destruct (tree_build o fuel) as (parent & sibling & Et & Htree); [lia|lia|]. rewrite Et. cbn [bind].
  rewrite (mk_Yend_ok V ranks) by auto using H18. cbn [bind].
  change Wp with Wp in *. assert (EZ : Wp = zfacs V ranks) by (rewrite HWp; reflexivity). rewrite EZ. clear EZ HWp EWp Wp.
  set (body := Tucker_sub_iter _ _ _ _ _ _ _ _ _ _ _ _ _).
  destruct (for_iter_run (tdt_reach iter (kprev p) (kW p))
     (fun f k s => match f with
        | Break => tdt_reach iter (kprev p) (kW p) k s /\ kdn (sk s) = core_dist V (kW (sk s)) (kprev (sk s)) /\ nltb (kdn (sk s)) tol || b = true /\ tchk (iter + Z.of_nat k) = true
        | _ => tdt_reach iter (kprev p) (kW p) (S k) s /\ tsmall (kW (sk s)) (kdW (sk s)) end)
     body (rounds iter maxiter) 0%nat iter (mkTS p (zeros (ttmc_lens V (kW p) (others (order V - 1) (order V)))) (lbuf o) (zfacs V ranks) sempty n0)) as (f & k & s & E & Hs).
  - split; [auto|]. split; [reflexivity|]. split; [reflexivity|]. split; [apply zfacs_ok|]. split; [reflexivity|]. split; [intros []; auto|].
    intros _. split; [lia|reflexivity].
  - intros k s Hk (Hpk & HYk & Hsqk & HPk & EW & ED & HL). subst body. unfold Tucker_sub_iter.
    set (it := (iter + Z.of_nat (k - 0))%Z). rewrite tchk_ok. cbn [bind].
    assert (Hc' : exists stop k1, (if tchk it then Tucker_DT_check clk rank0 V tol limit false (lbuf o) it (sk s) else Ok (false, sk s)) = Ok (stop, k1) /\
        tok k1 /\ kW k1 = kW (sk s) /\ kdW k1 = kdW (sk s) /\
        (stop = true -> kdn k1 = core_dist V (kW k1) (kprev k1) /\ nltb (kdn k1) tol || b = true /\ tchk it = true) /\
        (b = true -> kprev k1 = kprev (sk s) /\ (stop = false -> tchk it = false))).
    { destruct (tchk it) eqn:Etc.
      - destruct (Tucker_DT_check_J tol it (sk s) Hpk) as (x' & Ec & HJ').
        destruct (nltb (core_dist V (kW (sk s)) (kprev (sk s))) tol || b) eqn:Eb; rewrite Ec; eexists _, _; (split; [reflexivity|]); cbn [kW kdW kdn kprev kcore kio];
         destruct Hpk as (P1 & P2 & P3 & P4 & P5).
        + split; [|split; [auto|split; [auto|split; [auto|split; [auto|discriminate]]]]]. split; [auto|]. cbn [kW kdW kdn kprev kcore kio]. split; [apply (core_lens clk V ranks); auto|]. auto.
        + split; [|split; [auto|split; [auto|split; [discriminate|intros Hb; rewrite Hb, orb_true_r in Eb; discriminate]]]]. split; [auto|]. cbn [kW kdW kdn kprev kcore kio]. split; [apply (core_lens clk V ranks); auto|].
          split; [apply (core_lens clk V ranks); auto|]. auto.
      - exists false, (sk s). split; [auto|]. split; [auto|]. split; [auto|]. split; [auto|]. split; [discriminate|auto]. }
    destruct Hc' as (stop & k1 & Ec & Hk1 & EW1 & ED1 & Hstop & Hlate). rewrite Ec. clear Ec. cbn [bind]. destruct stop.
    + exists Break, (with_sk s k1). split; auto. cbn [with_sk sk]. split; [|unfold it in Hstop; rewrite Nat.sub_0_r in Hstop; auto].
      split; [exact Hk1|]. cbn [with_sk sk syend sseqY sprevW]. rewrite EW1, ED1.
      split; [auto|]. split; [auto|]. split; [auto|]. split; [auto|]. split; [auto|].
      intros Hb. destruct (HL Hb) as [L1 L2]. destruct (Hlate Hb) as [-> _]. auto.
    + destruct Hk1 as (P1 & P2 & P3 & P4 & P5). rewrite Hsqk.
      assert (HP' : tucker_ok V (sprevW s) ranks) by (apply (dW_tucker (kW k1)); auto).
      destruct (sub_sweep_ok RL LA Hsq Hsvd V ranks H18 Hr fuel parent sibling Hf Htree Hgood (kcore k1) (sprevW s) (kW k1) (syend s)) as (Y' & Es & HY'); auto.
      { rewrite HYk. unfold o. rewrite <- !(Y_lens V ranks H18) by (auto; fold o; lia). auto. }
      fold o in Es. rewrite Es. cbn [bind]. fold o.
      set (W' := hooi_aligned_upto (svd LA) V ranks (sprevW s) o (kW k1)) in *.
      assert (HW' : tucker_ok V W' ranks) by (apply aligned_tucker; auto).
      rewrite tdw_update_ok by (auto; apply tucker_dW; auto). cbn [bind].
      assert (Hreach : tdt_reach iter (kprev p) (kW p) (S k) (mkTS (mkTk W' (tucker_core V W') (kprev k1) (tchanged W' (sprevW s)) (kdn k1) (kio k1)) Y' (lbuf o) W' (smp s) (sfirst s))).
      { split; [|cbn [sk syend sseqY sprevW kW kdW]; split; [rewrite HY'; auto|split; [auto|split; [apply tucker_dW; auto|split]]]].
        - split; [auto|]. cbn [kW kcore kprev kdW kio sk]. split; [apply (core_lens clk V ranks); auto|]. split; [auto|]. split; [|auto].
          apply tchanged_ok, tucker_dW; auto.
        - change (Nat.iter (S k) dstep (kW p, zfacs V ranks)) with (dstep (Nat.iter k dstep (kW p, zfacs V ranks))). rewrite <- EW.
          unfold dstep, aligned_sweep. cbn [fst snd]. rewrite <- EW1. reflexivity.
        - split; [intros _; replace (S k - 1)%nat with k by lia; rewrite <- EW; reflexivity|].
          intros Hb. destruct (HL Hb) as [L1 L2]. destruct (Hlate Hb) as [L3 L4]. cbn [kprev]. split; [|congruence].
          intros j Hj. destruct (Nat.eq_dec j k) as [->|]; [|apply L1; lia]. unfold it in L4. rewrite Nat.sub_0_r in L4. auto. }
      destruct (Nat.eqb_spec (count (fun m => nltb (rel_change W' (tchanged W' (sprevW s)) m) tol_init) o) o) as [Ec|].
      * eexists Return, _. split; [reflexivity|]. split; auto. cbn [sk kW kdW]. intros m Hm. apply (cnt_full _ _ Ec m Hm).
      * eexists Go, _. split; [reflexivity|]. auto.
  - rewrite Nat.sub_0_r in E. rewrite E. cbn [bind]. unfold rounds in Hs. destruct f.
    + destruct Hs as [-> (H1 & H2 & H3 & H4 & H5 & H6 & H7)]. eexists _, _, _. split; [reflexivity|]. split; auto. split; [rewrite <- H5; auto|]. split; [exact H6|].
      split; [exact H7|]. left. lia.
    + destruct Hs as [Hk ((H1 & H2 & H3 & H4 & H5 & H8 & H9) & H6 & H7 & H10)]. eexists _, _, _. split; [reflexivity|]. split; auto. split; [rewrite <- H5; auto|]. split; [exact H8|].
      split; [exact H9|]. right. left. split; [lia|auto].
    + destruct Hs as [Hk ((H1 & H2 & H3 & H4 & H5 & H8 & H9) & H6)]. eexists _, _, _. split; [reflexivity|]. split; auto. split; [rewrite <- H5; auto|]. split; [exact H8|].
      split; [exact H9|]. right. right. split; [lia|auto].
Qed.
Theorem tDT_sub_stuck iter p : b = true -> tok p -> (iter <= maxiter)%Z -> tchk iter = true ->
  exists x', alsTucker_DT_sub LA clk rank0 fuel V tol tol_init limit maxiter resprint iter p
    = Ok (iter, mkTk (kW p) (tucker_core V (kW p)) (kprev p) (kdW p) (core_dist V (kW p) (kprev p)) x') /\ Jx x'.
Proof.
  intros Hb Hp Hit Hchk. unfold alsTucker_DT_sub. fold o. assert (Hp' := Hp). destruct Hp' as (HW & HC & HP & HD & HJ).
  pose proof HW as (HV & LW & LR & HM).
  destruct (for_inv (fun j (D : list (tensor N)) => True)
     (fun i acc => Wi <- lget (kW p) i ;; Ok (acc ++ [zeros [nrow Wi; ncol Wi]])) 0 o []) as (Wp & EWp & HWp).
  { lia. } { auto. }
  { intros j D Hj _. rewrite (lget_ok (kW p) j tnil) by (rewrite LW; fold o; lia). cbn [bind]. eauto. }
  rewrite EWp. cbn [bind]. rewrite mk_seqV_ok. cbn [bind].
  destruct (tree_build o fuel) as (parent & sibling & Et & Htree); [lia|lia|]. rewrite Et. cbn [bind].
  rewrite (mk_Yend_ok V ranks) by auto using H18. cbn [bind].
  unfold rounds. replace (Z.to_nat (maxiter + 1 - iter)) with (S (Z.to_nat (maxiter - iter))) by lia. cbn [for_iter].
  unfold Tucker_sub_iter at 1. rewrite tchk_ok. cbn [bind]. rewrite Hchk. cbn [sk].
  destruct (Tucker_DT_check_J tol iter p Hp) as (x' & Ec & HJ').
  rewrite Ec. rewrite Hb, orb_true_r in *. cbn [bind with_sk sk]. eexists; split; [reflexivity|]. auto.
Qed.
End DT.

(** ** the pairwise-perturbation phase *)
Section PPphase.
Context (tol tol_init : N) (maxiter resprint : Z).
Hypothesis Ho9 : (3 <= o <= 9)%nat.
Hypothesis Hres : resprint <> 0%Z.
Definition tmoved (p : tk_state (N:=N)) : nat :=
  if bench then 0%nat else count (fun m => nltb tol_init (rel_change (kW p) (kdW p) m)) o.
Definition tpp_at (p : tk_state (N:=N)) (k : nat) (q : tk_state (N:=N)) : Prop :=
  tok q /\ (kW q, kdW q) = Nat.iter k (tpp_sweep (svd LA) V ranks (kW p)) (kW p, zfacs V ranks).
Definition tpp_reach (iter : Z) (p : tk_state (N:=N)) (k : nat) (s : tk_sub (N:=N)) : Prop :=
  tok (sk s) /\ lens (syend s) = ttmc_lens V (kW p) (others (o - 1) o) /\ sseqY s = lbuf o /\ (k = 0%nat -> sk s = p) /\
  (k <> 0%nat -> tmoved p = 0%nat /\ tpp_at p k (sk s) /\ sprevW s = kW p /\ ops_ok V (kW p) (smp s) /\
     nltb (core_dist V (kW p) (kprev p)) tol || b = false /\ (iter + Z.of_nat k <> maxiter + 1)%Z).

Lemma tPP_check_J iter s : tok (sk s) ->
  exists x' df, Tucker_PP_check clk rank0 V tol limit bench maxiter (lbuf o) iter s
   = Ok (nltb (core_dist V (kW (sk s)) (kprev (sk s))) tol || b || Z.eqb iter maxiter,
         mkTS (mkTk (kW (sk s)) (tucker_core V (kW (sk s)))
                (if nltb (core_dist V (kW (sk s)) (kprev (sk s))) tol || b || Z.eqb iter maxiter then kprev (sk s) else tucker_core V (kW (sk s)))
                (kdW (sk s)) (core_dist V (kW (sk s)) (kprev (sk s))) x') (syend s) (sseqY s) (sprevW s) (smp s) df) /\ Jx x'.
Proof.
  intros (HW & HC & HP & HD & HJ). unfold Tucker_PP_check.
  destruct (tmeasure_J (kcore (sk s)) (kprev (sk s)) (kW (sk s)) (kio (sk s)) HW HJ) as (x' & dt & Em & HJ' & _). rewrite Em. cbn [bind].
  match goal with |- context [let '(x, df) := ?E in _] => assert (Hx : exists x1 df, E = (x1, df) /\ Jx x1) end.
  { destruct bench eqn:Eb; [destruct rank0 eqn:Er; [destruct (negb (iter =? maxiter)%Z)|]|].
    - eexists _, _; split; [reflexivity|]. unfold Jx, set_st, wtime. cbn. apply (J_reset eq_refl _ _ HJ').
    - eexists _, _; split; [reflexivity|]. rewrite <- Er. apply temit_J; auto.
    - eexists _, _; split; [reflexivity|]. auto.
    - eexists _, _; split; [reflexivity|]. apply temit_J; auto. }
  destruct Hx as (x1 & df & -> & HJ1). unfold tk_stop.
  destruct (tstop_test_J (core_dist V (kW (sk s)) (kprev (sk s))) tol x1 HJ1) as (x2 & Es & HJ2). rewrite Es.
  destruct (nltb (core_dist V (kW (sk s)) (kprev (sk s))) tol || b || (iter =? maxiter)%Z).
  - eauto.
  - rewrite tcopy by auto. cbn [bind]. eauto.
Qed.
Lemma tmoved_ok p : tok p -> (if bench then Ok 0%nat else dw_count o tol_init (kW p) (kdW p)) = Ok (tmoved p).
Proof. intros (HW & HC & HP & HD & HJ). unfold tmoved. destruct bench; auto. apply tdw_count_ok; auto. apply tucker_dW; auto. Qed.

Definition tpp_flow iter p (f : flow) (k : nat) (s : tk_sub (N:=N)) : Prop :=
  match f with
  | Return => (k = 0%nat /\ (0 < tmoved p)%nat /\ sk s = p) \/
              ((0 < k)%nat /\ tmoved p = 0%nat /\ (0 < tmoved (sk s))%nat /\ tpp_at p k (sk s) /\
               nltb (core_dist V (kW p) (kprev p)) tol || b = false)
  | _ => tmoved p = 0%nat /\ tpp_at p k (sk s) /\ kdn (sk s) = core_dist V (kW (sk s)) (kprev (sk s)) /\
         (nltb (kdn (sk s)) tol || b || Z.eqb (iter + Z.of_nat k) maxiter = true) /\ (k = 0%nat -> kprev (sk s) = kprev p) /\
         (k <> 0%nat -> nltb (core_dist V (kW p) (kprev p)) tol || b = false)
  end.
Lemma tPP_iter_ok p iter k s : tok p -> tpp_reach iter p k s ->
  exists f s', Tucker_PP_iter LA clk rank0 V tol tol_init limit maxiter resprint bench (lbuf o) iter (iter + Z.of_nat k)%Z s
     = Ok (f, s') /\ match f with Go => tpp_reach iter p (S k) s' | _ => tpp_flow iter p f k s' end.
Proof.
  intros Hp (Hs & HY & Hsqk & H0 & Hk). unfold Tucker_PP_iter. fold o. rewrite (tmoved_ok (sk s) Hs). cbn [bind].
  assert (Hit : (iter + Z.of_nat k =? iter)%Z = (k =? 0)%nat).
  { destruct (Nat.eqb_spec k 0); [subst; apply Z.eqb_eq; lia|apply Z.eqb_neq; lia]. }
  rewrite Hit. destruct (Nat.ltb_spec 0 (tmoved (sk s))) as [Hm|Hm].
  - exists Return, s. split; auto. cbn [tpp_flow]. destruct (Nat.eq_dec k 0) as [->|Hk0].
    + left. rewrite H0 in * by auto. auto.
    + right. destruct (Hk Hk0) as (M0 & Hat & _ & _ & Hn & _). split; [lia|auto].
  - assert (Hs1 : exists s1, (if (k =? 0)%nat then
            let k := sk s in
            dW <- mk_dW (kW k) o ;;
            mp <- build_ttmc_operators V (kW k) (lbuf o) ;;
            Ok (mkTS (mkTk (kW k) (kcore k) (kprev k) dW (kdn k) (kio k)) (syend s) (sseqY s) (kW k) mp (sfirst s))
          else Ok s) = Ok s1 /\ tmoved p = 0%nat /\ tpp_at p k (sk s1) /\ sprevW s1 = kW p /\ ops_ok V (kW p) (smp s1) /\
          lens (syend s1) = ttmc_lens V (kW p) (others (o - 1) o) /\ sseqY s1 = lbuf o /\ (k = 0%nat -> kprev (sk s1) = kprev p) /\
          (k <> 0%nat -> nltb (core_dist V (kW p) (kprev p)) tol || b = false)).
    { destruct (Nat.eqb_spec k 0) as [->|Hk0].
      - rewrite H0 in * by auto. destruct Hp as (P1 & P2 & P3 & P4 & P5). cbv zeta.
        rewrite (tmk_dW_ok _ P1). cbn [bind].
        destruct (operators_ok RL V ltac:(fold o; lia) (kW p) Ho9 (tucker_shapes _ _ _ P1)) as (mp & Em & Ht1 & Ht2). fold o in Em. rewrite Em. cbn [bind].
        eexists; split; [reflexivity|]. split; [lia|]. cbn [sk sprevW smp syend sseqY kprev]. split; [|split; [auto|split; [split; auto|split; [auto|split; [auto|split; [auto|intros []; auto]]]]]].
        split; [|reflexivity]. exact (conj P1 (conj P2 (conj P3 (conj zfacs_ok P5)))).
      - destruct (Hk Hk0) as (M0 & Hat & H3 & H4 & H5 & H6). exists s. split; [auto|]. split; [auto|]. split; [auto|]. split; [auto|]. split; [auto|].
        split; [auto|]. split; [auto|]. split; [intros ->; contradiction|auto]. }
    destruct Hs1 as (s1 & Es1 & M0 & Hat & Hprev & Htab & HY1 & Hsq1 & Hpv & Hnst). cbv zeta in Es1 |- *. rewrite Es1. clear Es1. cbn [bind].
    rewrite (tchk_ok maxiter resprint Hres). cbn [bind].
    assert (Hc' : exists stop s2, (if tchk maxiter resprint (iter + Z.of_nat k) || (k =? 0)%nat
        then Tucker_PP_check clk rank0 V tol limit bench maxiter (lbuf o) (iter + Z.of_nat k) s1 else Ok (false, s1)) = Ok (stop, s2) /\
        tpp_at p k (sk s2) /\ sprevW s2 = kW p /\ ops_ok V (kW p) (smp s2) /\ lens (syend s2) = ttmc_lens V (kW p) (others (o - 1) o) /\ sseqY s2 = lbuf o /\
        (stop = true -> kdn (sk s2) = core_dist V (kW (sk s2)) (kprev (sk s2)) /\ nltb (kdn (sk s2)) tol || b || Z.eqb (iter + Z.of_nat k) maxiter = true /\
            (k = 0%nat -> kprev (sk s2) = kprev p)) /\
        (stop = false -> nltb (core_dist V (kW p) (kprev p)) tol || b = false /\ (iter + Z.of_nat k <> maxiter)%Z)).
    { destruct (tchk maxiter resprint (iter + Z.of_nat k) || (k =? 0)%nat) eqn:Eor.
      - destruct Hat as (Htok1 & EW1). destruct (tPP_check_J (iter + Z.of_nat k)%Z s1 Htok1) as (x' & df & Ec & HJ').
        destruct (nltb (core_dist V (kW (sk s1)) (kprev (sk s1))) tol || b || (iter + Z.of_nat k =? maxiter)%Z) eqn:Eb; rewrite Ec;
        (eexists _, _; split; [reflexivity|]); cbn [sk sprevW smp syend sseqY kdn kW kprev]; destruct Htok1 as (P1 & P2 & P3 & P4 & P5).
        + split; [|split; [auto|split; [auto|split; [auto|split; [auto|split; [auto|discriminate]]]]]].
          split; [|exact EW1]. split; [auto|]. cbn [kW kcore kprev kdW kio]. split; [apply (core_lens clk V ranks); auto|]. auto.
        + split; [|split; [auto|split; [auto|split; [auto|split; [auto|split; [discriminate|]]]]]].
          * split; [|exact EW1]. split; [auto|]. cbn [kW kcore kprev kdW kio]. split; [apply (core_lens clk V ranks); auto|].
            split; [apply (core_lens clk V ranks); auto|]. auto.
          * intros _. apply orb_false_iff in Eb as [Eb1 Eb2]. apply Z.eqb_neq in Eb2. split; [|auto].
            destruct (Nat.eq_dec k 0) as [->|Hk0]; [|auto]. cbn [Nat.iter nat_rect] in EW1. injection EW1 as E1 E2. rewrite E1, Hpv in Eb1 by auto. exact Eb1.
      - exists false, s1. split; [auto|]. split; [exact Hat|]. split; [auto|]. split; [auto|]. split; [auto|]. split; [auto|]. split; [discriminate|].
        intros _. apply orb_false_iff in Eor as [E1 E2]. apply Nat.eqb_neq in E2. split; [auto|].
        unfold tchk in E1. apply orb_false_iff in E1 as [_ E1]. apply Z.eqb_neq in E1. auto. }
    destruct Hc' as (stop & s2 & -> & Hat2 & Hprev2 & Htab2 & HY2 & Hsq2 & Hstop & Hnstop). cbn [bind]. destruct stop.
    + exists Break, s2. split; [auto|]. cbn [tpp_flow]. destruct (Hstop eq_refl) as (S1 & S2 & S3). split; [auto|]. split; [auto|]. split; [auto|]. split; [auto|]. split; auto.
    + rewrite Hprev2, Hsq2. destruct Hat2 as ((P1 & P2 & P3 & P4 & P5) & E2). destruct Hp as (Q1 & Q2 & Q3 & Q4 & Q5).
      assert (Es := PTPP2.PP_sweep_ok RL LA V ranks H18 Hr Hsq Hsvd (kcore (sk s2)) (smp s2) (kW p) (kW (sk s2)) (kdW (sk s2)) (syend s2) P2 Q1 P1 P4 Htab2 HY2).
      fold o in Es. assert (Hok := PTPP2.tpp_upto_ok LA V ranks H18 Hr Hsvd (kW p) o (kW (sk s2)) (kdW (sk s2)) ltac:(lia) P1 P4).
      destruct (tpp_upto (svd LA) V ranks (kW p) (o - 1) (kW (sk s2), kdW (sk s2))) as [Wa dWa].
      destruct (tpp_upto (svd LA) V ranks (kW p) o (kW (sk s2), kdW (sk s2))) as [W' dW'] eqn:EU. rewrite Es. cbn [bind].
      destruct Hok as (O1 & O2). destruct (Hnstop eq_refl) as (N1 & N2).
      eexists Go, _. split; [reflexivity|].
      set (core' := ttm _ _ _).
      assert (LC' : lens core' = ranks).
      { unfold core'. rewrite ttm_lens, pp_ttmc_lens. unfold o. rewrite <- (Y_lens V ranks H18) by (auto; fold o; lia). rewrite lset_lset.
        destruct O1 as (_ & _ & _ & O1). rewrite (mat_ncol _ _ _ (O1 (order V - 1)%nat ltac:(fold o; lia))). apply lset_self. }
      assert (Htok : tok (mkTk W' core' (kprev (sk s2)) dW' (kdn (sk s2)) (kio (sk s2)))).
      { split; [exact O1|]. cbn [kW kcore kprev kdW kio]. auto. }
      split; [exact Htok|]. cbn [sk syend sseqY sprevW smp]. split; [apply pp_ttmc_lens|]. split; [auto|]. split; [discriminate|]. intros _.
      split; [auto|]. split; [|split; [auto|split; [auto|split; [auto|lia]]]]. split; [exact Htok|]. cbn [kW kdW].
      change (Nat.iter (S k) ?f ?x) with (f (Nat.iter k f x)). rewrite <- E2. unfold tpp_sweep. fold o. rewrite EU. reflexivity.
Qed.
Theorem tPP_sub_run iter p : tok p -> (iter <= maxiter)%Z ->
  exists f iter' q k,
    alsTucker_PP_sub LA clk rank0 V tol tol_init limit maxiter resprint bench iter p = Ok (iter', q) /\
    match f with
    | Go => False
    | Break => (iter + Z.of_nat k <= maxiter)%Z /\ iter' = (iter + Z.of_nat k + if bench then 1 else 0)%Z /\ tmoved p = 0%nat /\ tpp_at p k q /\
               kdn q = core_dist V (kW q) (kprev q) /\ (nltb (kdn q) tol || b || Z.eqb (iter + Z.of_nat k) maxiter = true) /\ (k = 0%nat -> kprev q = kprev p) /\
               (k <> 0%nat -> nltb (core_dist V (kW p) (kprev p)) tol || b = false)
    | Return => (iter' = iter + Z.of_nat k /\ iter' <= maxiter)%Z /\
               ((k = 0%nat /\ (0 < tmoved p)%nat /\ q = p) \/
                ((0 < k)%nat /\ tmoved p = 0%nat /\ (0 < tmoved q)%nat /\ tpp_at p k q /\ nltb (core_dist V (kW p) (kprev p)) tol || b = false))
    end.
Proof.
  intros Hp Hit. unfold alsTucker_PP_sub. fold o. assert (Hp' := Hp). destruct Hp' as (HW & HC & HP & HD & HJ).
  rewrite mk_seqV_ok. cbn [bind]. rewrite (mk_Yend_ok V ranks) by auto using H18. cbn [bind].
  set (body := Tucker_PP_iter _ _ _ _ _ _ _ _ _ _ _ _).
  destruct (for_iter_run (tpp_reach iter p) (tpp_flow iter p) body (rounds iter maxiter) 0%nat iter
     (mkTS p (zeros (ttmc_lens V (kW p) (others (order V - 1) (order V)))) (lbuf o) [] sempty n0)) as (f & k & s & E & Hs).
  - split; [auto|]. split; [reflexivity|]. split; [reflexivity|]. split; [auto|]. intros []; auto.
  - intros k s Hk Hr'. subst body. rewrite Nat.sub_0_r. apply tPP_iter_ok; auto.
  - rewrite Nat.sub_0_r in E. rewrite E. cbn [bind]. unfold rounds in Hs. exists f. eexists _, _, k. split; [reflexivity|]. destruct f.
    + destruct Hs as [Ek (H1 & H2 & H3 & H4 & H5)]. destruct H5 as (_ & _ & _ & _ & _ & H5); lia.
    + destruct Hs as [Hk (M0 & Hat & H3 & H4 & H5 & H6)]. split; [lia|]. split; [destruct bench; lia|]. destruct Hat as [Ha1 Ha2]. split; [auto|]. split; [split; auto|]. split; [auto|]. split; [auto|]. split; auto.
    + destruct Hs as [Hk Hs]. split; [lia|]. destruct Hs as [(-> & H1 & ->)|(H1 & H2 & H3 & H4)]; auto 10.
Qed.
Lemma tPP_sub_none iter p : tok p -> (maxiter < iter)%Z ->
  alsTucker_PP_sub LA clk rank0 V tol tol_init limit maxiter resprint bench iter p = Ok ((iter + if bench then 1 else 0)%Z, p).
Proof.
  intros (HW & HC & HP & HD & HJ) Hit. unfold alsTucker_PP_sub. fold o.
  rewrite mk_seqV_ok. cbn [bind]. rewrite (mk_Yend_ok V ranks) by auto using H18. cbn [bind].
  unfold rounds. replace (Z.to_nat (maxiter + 1 - iter)) with 0%nat by lia. cbn [for_iter bind sk].
  destruct bench; do 2 f_equal; lia.
Qed.
End PPphase.

(** ** the driver loop *)
Lemma aligned_norm (U P : tensor N) n k : is_mat U n k -> norm2 (aligned U P) = norm2 U.
Proof.
  intros HU. unfold norm2. f_equal. assert (HA := aligned_mat U P n k HU).
  assert (HUw : wf U) by apply HU. assert (HAw : wf (aligned U P)) by apply HA.
  rewrite <- (at_all (aligned U P) HAw), <- (at_all U HUw). 
  rewrite !bigsum_map. unfold aligned. cbn [lens tabulate]. apply bigsum_ext. intros idx Hi. apply all_idx_in in Hi.
  rewrite at_tabulate by auto. destruct HU as [EL _]. rewrite EL in Hi. apply inb2_inv in Hi as (i & j & -> & Hi & Hj). cbn [nth].
  unfold el. destruct (nltb n0 _); ring.
Qed.
Lemma msub_zero (A : tensor N) n k : is_mat A n k -> msub A (zeros [n; k]) = A.
Proof.
  intros [EL Hw]. apply tensor_ext; auto; [apply tabulate_wf|]. intros idx Hi. unfold msub in *. cbn [lens tabulate] in Hi.
  rewrite at_tabulate by auto. unfold zeros. rewrite at_tabulate by (rewrite <- EL; auto). ring.
Qed.
Section Loop.
Context (tol : N) (maxiter resprint : Z) (fuel : nat).
Hypothesis Ho9 : (3 <= o <= 9)%nat.
Hypothesis Hres : resprint <> 0%Z.
Hypothesis Hf : (o < fuel)%nat.
Hypothesis Hasym : lt_asym N.
Let dtsub := fun ti => alsTucker_DT_sub LA clk rank0 fuel V tol ti limit maxiter resprint.
Let sub := fun ti => alsTucker_PP_sub LA clk rank0 V tol ti limit maxiter resprint bench.
Definition tdecay (t : N) : N := if nltb (nlit (5 # 1000)) t then t * nlit (9 # 10) else t.

Lemma first_sweep_big W ti : svd_nonzero (svd LA) -> tucker_ok V W ranks ->
  (forall x : N, x <> n0 -> nltb (nabs (x / x)) ti = false) ->
  let W1 := fst (aligned_sweep (svd LA) V ranks (W, zfacs V ranks)) in ~ tsmall ti W1 (tchanged W1 (zfacs V ranks)).
Proof.
  intros Hnz HW Hu W1 Hs. specialize (Hs 0%nat ltac:(lia)).
  assert (HW1 : tucker_ok V W1 ranks) by (apply aligned_tucker; auto).
  unfold rel_change in Hs. unfold tchanged in Hs. rewrite fac_map_seq in Hs by lia.
  unfold zfacs in Hs. rewrite fac_map_seq in Hs by (fold o; lia).
  rewrite (msub_zero _ (nth 0 (lens V) 0%nat) (nth 0 ranks 0%nat)) in Hs by (apply HW1; fold o; lia).
  rewrite Hu in Hs; [discriminate|]. clear Hs.
  assert (E1 : fac W1 0 = aligned (hooi_factor (svd LA) V ranks W 0) (fac (zfacs V ranks) 0)).
  { subst W1. unfold aligned_sweep, hooi_aligned_upto. cbn [fst snd]. fold o. destruct o as [|o'] eqn:Eo; [lia|]. cbn [seq fold_left].
    set (f := fun (W : list (tensor N)) n => setf W n _). set (W' := setf W 0 _). change (fac (fold_left f (seq 1 o') W') 0 = aligned (hooi_factor (svd LA) V ranks W 0) (fac (zfacs V ranks) 0)).
    assert (H : forall l X, (0 < length X)%nat -> (forall m, In m l -> (0 < m)%nat) -> fac (fold_left f l X) 0 = fac X 0).
    { clear. induction l; intros X HX Hl; cbn [fold_left]; auto. rewrite IHl.
      - unfold f. unfold fac, setf. specialize (Hl a (or_introl eq_refl)). destruct X; [cbn in HX; lia|]. destruct a; [lia|]. reflexivity.
      - unfold f. rewrite setf_length. auto.
      - intros; apply Hl; right; auto. }
    pose proof HW as (_ & LW & _). fold o in LW. rewrite Eo in LW.
    rewrite H; [unfold W'; rewrite fac_setf by lia; reflexivity|unfold W'; rewrite setf_length; lia|]. intros m Hm. apply in_seq in Hm. lia. }
  rewrite E1. rewrite (aligned_norm _ _ (nth 0 (lens V) 0%nat) (nth 0 ranks 0%nat)) by (apply hooi_factor_mat; auto using H18; fold o; lia).
  unfold hooi_factor. apply (Hnz _ (nth 0 (lens V) 0%nat)); [|apply Hr; fold (order V) o; lia].
  rewrite <- (Y_nth V H18 W 0) by (auto; fold o; lia). apply unfold_gram_mat.
Qed.

Theorem twhile_terminates (lev : N -> nat -> Prop) : bench = false -> b = false -> (o = 4 \/ 6 <= o)%nat -> svd_nonzero (svd LA) ->
  (forall t, lev t 0%nat -> forall x : N, x <> n0 -> nltb (nabs (x / x)) t = false) ->
  (forall t m, lev t m -> lev (tdecay t) (m - 1)%nat) ->
  forall s wf iter p ti n m, tok p -> lev ti m -> (maxiter + 1 - iter <= Z.of_nat n)%Z -> (n + m <= s)%nat -> (s <= wf)%nat ->
  (iter <= maxiter + 1)%Z ->
  exists iter' q, tk_while wf dtsub sub tol maxiter bench ti iter p = Ok (iter', q) /\ tok q /\ (iter <= iter' <= maxiter + 1)%Z /\ ((iter' <= maxiter)%Z -> nltb tol (kdn q) = false).
Proof.
  intros Eb Hb Hord Hnz Hlev Hdec. induction s as [|s IH]; intros wf iter p ti n m Hp Hl Hn Hs Hwf Hle.
  - assert (E : (nltb tol (kdn p) && (iter <=? maxiter)%Z) = false) by (rewrite andb_comm; destruct (Z.leb_spec iter maxiter); auto; lia).
    exists iter, p. destruct wf; cbn [tk_while]; rewrite E; (split; [auto|split; [auto|split; [lia|lia]]]).
  - destruct (nltb tol (kdn p) && (iter <=? maxiter)%Z) eqn:E.
    2:{ exists iter, p. destruct wf; cbn [tk_while]; rewrite E; (split; [auto|split; [auto|split; [lia|]]]);
        intros Hi; apply andb_false_iff in E as [E|E]; auto; apply Z.leb_gt in E; lia. }
    assert (Hexit : forall wf t i q, tok q -> nltb tol (kdn q) = false \/ i = (maxiter + 1)%Z -> (iter <= i <= maxiter + 1)%Z ->
       exists iter' q', tk_while wf dtsub sub tol maxiter bench t i q = Ok (iter', q') /\ tok q' /\ (iter <= iter' <= maxiter + 1)%Z /\ ((iter' <= maxiter)%Z -> nltb tol (kdn q') = false)).
    { intros w t i q Hq Ht Hi. exists i, q. assert (X : nltb tol (kdn q) && (i <=? maxiter)%Z = false).
      { destruct Ht as [->|Ht]; auto. destruct (Z.leb_spec i maxiter); [lia|]. apply andb_false_r. }
      destruct w; cbn [tk_while]; rewrite X; (split; [auto|split; [auto|split; [auto|]]]); intros; destruct Ht as [->|]; auto; lia. }
    apply andb_true_iff in E as [E1 E2]. apply Z.leb_le in E2. destruct wf as [|wf]; [lia|]. cbn [tk_while]. rewrite E1.
    destruct (Z.leb_spec iter maxiter); [|lia]. cbn [andb].
    replace (if bench then Ok (iter, p) else dtsub ti iter p) with (dtsub ti iter p) by (rewrite Eb; auto). fold (tdecay ti).
    destruct (tDT_sub_run tol ti maxiter resprint fuel ltac:(lia) Hf Hres iter p Hp E2) as (it1 & p1 & k & Ed & Hp1 & EW1 & ED1 & _ & Hcase).
    fold (dtsub ti) in Ed. rewrite Ed. cbn [bind]. clear Ed.
    destruct Hcase as [(H1 & H2)|[((H1 & H2) & H3 & H4 & _)|((H1 & H2) & H3)]].
    + assert (Ep := tPP_sub_none tol ti maxiter resprint Ho9 it1 p1 Hp1 ltac:(lia)). fold (sub ti) in Ep. rewrite Ep. cbn [bind].
      replace (it1 + (if bench then 1 else 0))%Z with it1 by (rewrite Eb; lia). apply Hexit; [auto|right; lia|lia].
    + rewrite Hb, orb_false_r in H4.
      destruct (tPP_sub_run tol ti maxiter resprint Ho9 Hres it1 p1 Hp1 ltac:(lia)) as (f & i2 & q & k2 & Ep & Hc). fold (sub ti) in Ep. rewrite Ep. cbn [bind]. clear Ep.
      rewrite Hb in Hc.  destruct f; [destruct Hc| |].
      * destruct Hc as (C1 & C2 & C3 & C4 & C5 & C6 & C7 & C8). rewrite Eb in C2. destruct (Nat.eq_dec k2 0) as [->|Hk2].
        2:{ specialize (C8 Hk2). rewrite <- H3, H4 in C8. discriminate. }
        destruct C4 as (C4 & C4'). cbn [Nat.iter nat_rect] in C4'. injection C4' as C4' _. apply Hexit; [auto| |lia].
        left. apply Hasym. rewrite C5, C4', C7, <- H3 by auto. auto.
      * destruct Hc as [C1 [(-> & C2 & ->)|(C2 & C3 & C4 & C5)]].
        -- apply Hexit; [auto| |lia]. left. apply Hasym. auto.
        -- destruct C5 as (_ & C5). rewrite <- H3, H4 in C5. discriminate.
    + assert (Hgo : forall i2 q, tok q -> ((iter < i2 <= maxiter + 1)%Z \/ ((iter <= i2 <= maxiter)%Z /\ (0 < m)%nat)) ->
         exists iter' q', tk_while wf dtsub sub tol maxiter bench (tdecay ti) i2 q = Ok (iter', q') /\ tok q' /\
         (iter <= iter' <= maxiter + 1)%Z /\ ((iter' <= maxiter)%Z -> nltb tol (kdn q') = false)).
      { intros i2 q Hq [Hi|[Hi Hm]].
        - destruct (IH wf i2 q (tdecay ti) (n - 1)%nat (m - 1)%nat) as (i' & q' & X1 & X2 & X3 & X4); auto; try lia. exists i', q'. auto with zarith.
        - destruct (IH wf i2 q (tdecay ti) n (m - 1)%nat) as (i' & q' & X1 & X2 & X3 & X4); auto; try lia. exists i', q'. auto with zarith. }
      destruct (tPP_sub_run tol ti maxiter resprint Ho9 Hres it1 p1 Hp1 ltac:(lia)) as (f & i2 & q & k2 & Ep & Hc). fold (sub ti) in Ep. rewrite Ep. cbn [bind]. clear Ep.
      rewrite Hb in Hc.  destruct f; [destruct Hc| |].
      * destruct Hc as (C1 & C2 & C3 & (C4 & _) & C5 & C6 & C7 & C8). rewrite Eb in C2. destruct (nltb (kdn q) tol) eqn:Et.
        -- apply Hexit; [auto|left; apply Hasym; auto|lia].
        -- cbn [orb] in C6. apply Z.eqb_eq in C6. apply Hgo; auto. destruct (Nat.eq_dec m 0) as [->|]; [|right; lia].
           destruct (Z.eq_dec iter maxiter) as [Em|]; [|left; lia]. exfalso. assert (k = 1%nat) as -> by lia.
           apply (first_sweep_big (kW p) ti Hnz (proj1 Hp) (Hlev ti Hl)). rewrite ED1 in H3 by auto. rewrite EW1 in H3. exact H3.
      * destruct Hc as [C1 [(-> & C2 & ->)|(C2 & C3 & C4 & (C5 & _) & C6)]].
        -- exfalso. unfold tmoved in C2. rewrite Eb in C2. rewrite cnt_zero in C2; [lia|]. intros j Hj. apply Hasym, H3. auto.
        -- apply Hgo; auto. left. lia.
Qed.
(** once the limit is exceeded on a checked iteration and the change is above tol, the loop never ends *)
Theorem twhile_diverges : bench = false -> b = true -> (o = 4 \/ 6 <= o)%nat ->
  forall wf iter p ti, tok p -> (iter <= maxiter)%Z -> tchk maxiter resprint iter = true ->
  nltb tol (kdn p) = true -> nltb tol (core_dist V (kW p) (kprev p)) = true ->
  tk_while wf dtsub sub tol maxiter bench ti iter p = Err LoopFuel.
Proof.
  intros Hbe Hb Hord. induction wf as [|wf IH]; intros iter p ti Hp Hit Hck H1 H2; cbn [tk_while]; rewrite H1;
    (destruct (Z.leb_spec iter maxiter); [|lia]); cbn [andb]; auto.
  replace (if bench then Ok (iter, p) else dtsub ti iter p) with (dtsub ti iter p) by (rewrite Hbe; auto).
  destruct (tDT_sub_stuck tol ti maxiter resprint fuel ltac:(lia) Hf Hres iter p Hb Hp Hit Hck) as (x' & Ed & HJ').
  fold (dtsub ti) in Ed. rewrite Ed. cbn [bind]. set (p1 := mkTk _ _ _ _ _ x').
  destruct Hp as (P1 & P2 & P3 & P4 & P5).
  assert (Hp1 : tok p1).
  { split; [exact P1|]. cbn [kW kcore kprev kdW kio p1]. split; [apply (core_lens clk V ranks); auto|]. auto. }
  destruct (tPP_sub_run tol ti maxiter resprint Ho9 Hres iter p1 Hp1 Hit) as (f & i2 & q & k & Ep & Hcase). fold (sub ti) in Ep. rewrite Ep. cbn [bind]. clear Ep.
  rewrite Hb in Hcase. destruct f; [destruct Hcase| |].
  - destruct Hcase as (C1 & C2 & C3 & (C4 & C4') & C5 & C6 & C7 & C8). rewrite Hbe in C2. subst i2. destruct (Nat.eq_dec k 0) as [->|Hk].
    + cbn [Nat.iter nat_rect] in C4'. injection C4' as C4' _. assert (E1 : kprev q = kprev p) by (rewrite C7 by auto; reflexivity).
      replace (iter + Z.of_nat 0 + 0)%Z with iter by lia. apply IH; auto; rewrite ?C5, C4', E1; auto.
    + specialize (C8 Hk). rewrite orb_true_r in C8. discriminate.
  - destruct Hcase as [(-> & C1) [(-> & C2 & ->)|(C2 & C3 & _ & _ & C4)]].
    + replace (iter + Z.of_nat 0)%Z with iter by lia. apply IH; auto.
    + rewrite orb_true_r in C4. discriminate.
Qed.
(** from the start: the first sweep is always done; the first check is that of iteration 1 *)
Theorem twhile_diverges_start : bench = false -> b = true -> (o = 4 \/ 6 <= o)%nat -> svd_nonzero (svd LA) -> (1 <= maxiter)%Z ->
  forall wf p ti, tok p -> (forall x : N, x <> n0 -> nltb (nabs (x / x)) ti = false) -> nltb tol (kdn p) = true ->
  (let W1 := fst (aligned_sweep (svd LA) V ranks (kW p, zfacs V ranks)) in nltb tol (core_dist V W1 (kprev p)) = true) ->
  tk_while wf dtsub sub tol maxiter bench ti 0 p = Err LoopFuel.
Proof.
  intros Hbe Hb Hord Hnz Hm wf p ti Hp Hu H1 H2. cbv zeta in H2. destruct wf as [|wf]; cbn [tk_while]; rewrite H1;
    (destruct (Z.leb_spec 0 maxiter); [|lia]); cbn [andb]; auto.
  replace (if bench then Ok (0%Z, p) else dtsub ti 0%Z p) with (dtsub ti 0%Z p) by (rewrite Hbe; auto).
  destruct (tDT_sub_run tol ti maxiter resprint fuel ltac:(lia) Hf Hres 0%Z p Hp ltac:(lia)) as (it1 & p1 & k & Ed & Hp1 & EW1 & ED1 & HL & Hcase).
  fold (dtsub ti) in Ed. rewrite Ed. cbn [bind]. clear Ed. destruct (HL Hb) as [L1 L2].
  assert (Hc1 : tchk maxiter resprint 1 = true) by (unfold tchk; cbn; rewrite orb_true_r; auto).
  assert (Hc0 : tchk maxiter resprint 0 = false).
  { unfold tchk. destruct (Z.eqb_spec 0 maxiter) as [Em|_]; [lia|]. change (Z.eqb 0 0) with true. cbn [negb]. rewrite andb_false_r. reflexivity. }
  assert (Hk : (k <= 1)%nat).
  { destruct (le_lt_dec k 1); auto. specialize (L1 1%nat ltac:(lia)). change (0 + Z.of_nat 1)%Z with 1%Z in L1. congruence. }
  destruct Hcase as [(C1 & C2)|[((C1 & C2) & C3 & C4 & C5)|((C1 & C2) & C3)]].
  - exfalso. lia.
  - assert (Ek1 : k = 1%nat).
    { destruct (Nat.eq_dec k 0) as [Ek|]; [|lia]. subst it1 k. change (0 + Z.of_nat 0)%Z with 0%Z in C5. congruence. }
    subst k.
    change (0 + Z.of_nat 1)%Z with 1%Z in C1. subst it1.
    assert (H3 : nltb tol (core_dist V (kW p1) (kprev p1)) = true) by (rewrite L2, EW1; exact H2).
    destruct (tPP_sub_run tol ti maxiter resprint Ho9 Hres 1 p1 Hp1 ltac:(lia)) as (f & i2 & q & k & Ep & Hc). fold (sub ti) in Ep. rewrite Ep. cbn [bind]. clear Ep.
    rewrite Hb in Hc. destruct f; [destruct Hc| |].
    + destruct Hc as (D1 & D2 & D3 & (D4 & D4') & D5 & D6 & D7 & D8). rewrite Hbe in D2. subst i2. destruct (Nat.eq_dec k 0) as [->|Hk0].
      * cbn [Nat.iter nat_rect] in D4'. injection D4' as D4' _. specialize (D7 eq_refl). change (1 + Z.of_nat 0 + 0)%Z with 1%Z.
        apply twhile_diverges; auto; rewrite ?D5, D4', D7; auto.
      * specialize (D8 Hk0). rewrite orb_true_r in D8. discriminate.
    + destruct Hc as [(-> & D1) [(-> & D2 & ->)|(D2 & D3 & _ & _ & D4)]].
      * change (1 + Z.of_nat 0)%Z with 1%Z. apply twhile_diverges; auto. rewrite C3. auto.
      * rewrite orb_true_r in D4. discriminate.
  - exfalso. assert (k = 1%nat) as -> by lia. apply (first_sweep_big (kW p) ti Hnz (proj1 Hp) Hu).
    rewrite ED1 in C3 by auto. rewrite EW1 in C3. exact C3.
Qed.
(** benchmark mode: one round *)
Theorem tbench : bench = true -> b = false -> forall wf p ti, tok p -> (0 <= maxiter)%Z -> nltb tol (kdn p) = true ->
  exists k q, tk_while (S wf) dtsub sub tol maxiter bench ti 0 p = Ok ((Z.of_nat k + 1)%Z, q) /\ (Z.of_nat k <= maxiter)%Z /\ tpp_at p k q /\
    kdn q = core_dist V (kW q) (kprev q) /\ (nltb (kdn q) tol = true \/ Z.of_nat k = maxiter).
Proof.
  intros Hbe Hb wf p ti Hp Hm Ht. cbn [tk_while]. rewrite Ht. destruct (Z.leb_spec 0 maxiter); [|lia]. cbn [andb].
  replace (if bench then Ok (0%Z, p) else dtsub ti 0%Z p) with (Ok (0%Z, p)) by (rewrite Hbe; auto). cbn [bind].
  destruct (tPP_sub_run tol ti maxiter resprint Ho9 Hres 0 p Hp Hm) as (f & i2 & q & k & Ep & Hc). fold (sub ti) in Ep. rewrite Ep. cbn [bind]. clear Ep.
  rewrite Hb in Hc. destruct f; [destruct Hc| |].
  - destruct Hc as (C1 & C2 & C3 & C4 & C5 & C6 & C7 & C8). exists k, q. rewrite Hbe in C2. rewrite orb_false_r in C6.
    assert (Hor : nltb (kdn q) tol = true \/ Z.of_nat k = maxiter).
    { destruct (nltb (kdn q) tol); auto. right. cbn [orb] in C6. apply Z.eqb_eq in C6. lia. }
    assert (X : nltb tol (kdn q) && (i2 <=? maxiter)%Z = false).
    { destruct Hor as [Hor|Hor]; [rewrite (Hasym _ _ Hor); auto|]. destruct (Z.leb_spec i2 maxiter); [lia|]. apply andb_false_r. }
    split; [|split; [lia|auto]]. destruct wf; cbn [tk_while]; rewrite X; subst i2; do 2 f_equal; lia.
  - exfalso. destruct Hc as [C1 [(-> & C2 & ->)|(C2 & C3 & C4 & C5 & C6)]]; unfold tmoved in *; rewrite Hbe in *; lia.
Qed.
End Loop.
End Clock.
End P.
