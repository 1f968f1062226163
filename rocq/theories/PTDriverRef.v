(** alsTucker_PP of the model computes exactly what the algorithm of Spec13 computes *)
From Coq Require Import List ZArith QArith Lia Bool Arith Permutation Ring.
From Verif Require Import Base Num Tensor Spec Spec2 Spec4 Spec7 Spec8 Spec9 Spec12 Spec13 MCommon MCP MTucker PBase PTensor PSum PMttkrp PPart PMat PKhatri PGrad PKhatriBad PDT PDTSweep PALS PDrivers PTree PBuildV PPP
  PPPDriver PTtm PTucker PHosvd PTDT PSign PTSweep PTDrivers PTPP PTPP2 PMatAlg PSolve PNormalize PPPSweep PTPPDriver PDriverRef.
Import ListNotations.
Local Close Scope Q_scope.

Section P.
Context {N : num} (RL : ring_laws N) (LA : lapack N).
Local Open Scope num_scope.
Context (V : tensor N) (ranks : list nat).
Let o := order V.
Hypothesis Ho : (3 <= o <= 9)%nat.
Hypothesis Hr : ranks_ok (lens V) ranks.
Hypothesis Hsq : sqrt_nonneg (N := N).
Hypothesis Hsvd : svd_trunc_shaped (svd LA).
Context (clk : nat -> N) (rank0 : bool) (tol limit : N) (maxiter resprint : Z) (bench : bool).
Hypothesis Hres : resprint <> 0%Z.
Local Lemma H10 : (2 <= order V <= 10)%nat. Proof. fold o. lia. Qed.
Local Lemma H18 : (2 <= order V <= 18)%nat. Proof. fold o. lia. Qed.
Definition tgood (k : tk_state (N:=N)) : Prop :=
  tucker_ok V (kW k) ranks /\ lens (kcore k) = ranks /\ lens (kprev k) = ranks /\ dW_ok V ranks (kdW k).
Lemma tmeasure_timed (core prev : tensor N) W x : tucker_ok V W ranks ->
  tk_measure clk V core prev W x = Ok (tucker_core V W, core_dist V W prev, tucker_resid V W, fst (timed clk x), snd (timed clk x)).
Proof.
  intros HW. unfold tk_measure, check_begin, wtime. fold o. assert (Ho' := H10).
  rewrite (core_TTMc RL clk V ranks) by auto. cbn [bind].
  assert (Et := transposes RL clk V ranks Ho' W HW). fold o in Et. rewrite Et. cbn [bind].
  rewrite (full_TTMc RL clk V ranks) by auto. cbn [bind]. rewrite mk_seqV_ok. cbn [bind].
  rewrite lbuf_take. cbn [bind]. unfold order at 1. rewrite (full_lens clk V ranks) by auto. fold (order V). fold o. rewrite lbuf_take. cbn [bind].
  pose proof HW as (HV & _).
  rewrite (assign_diff RL); auto.
  - cbn [bind]. unfold check_end, wtime, set_st, timed. cbn [ck st_time rows fst snd].
    replace (ck x + 1)%nat with (S (ck x)) by lia. replace (ck x + 2)%nat with (S (S (ck x))) by lia. replace (ck x + 3)%nat with (S (S (S (ck x)))) by lia. reflexivity.
  - apply letters_chr_nodup; lia.
  - rewrite letters_len. unfold order. rewrite (full_lens clk V ranks) by auto. auto.
  - apply tabulate_wf.
  - rewrite (full_lens clk V ranks) by auto. auto.
  - rewrite (full_lens clk V ranks) by auto. auto.
Qed.
Lemma tcopy' prev W : tucker_ok V W ranks -> lens prev = ranks -> copy_core prev (tucker_core V W) (lbuf o) = Ok (tucker_core V W).
Proof.
  intros HW HP. apply (copy_core_ok RL clk V).
  - apply H10.
  - apply tabulate_wf.
  - apply (core_order V ranks). auto.
  - rewrite HP. symmetry. apply (core_lens clk V ranks); auto using H10.
Qed.
Lemma core_lens' W : tucker_ok V W ranks -> lens (tucker_core V W) = ranks.
Proof. intros. apply (core_lens clk V ranks); auto using H10. Qed.
Lemma tk_due_ok iter : tk_checks iter maxiter resprint = Ok (tk_due maxiter resprint iter).
Proof. unfold tk_checks, zmod. destruct (Z.eqb_spec resprint 0); [contradiction|]. reflexivity. Qed.

Lemma tk_exact_check_ok iter k : tgood k ->
  Tucker_DT_check clk rank0 V tol limit false (lbuf o) iter k = Ok (tk_exact_check clk rank0 V tol limit iter k) /\
  tgood (snd (tk_exact_check clk rank0 V tol limit iter k)).
Proof.
  intros (HW & HC & HP & HD). unfold Tucker_DT_check. rewrite tmeasure_timed by auto. cbn [bind]. unfold tk_exact_check.
  destruct (timed clk (kio k)) as [dt x]. cbn [fst snd]. unfold tk_stop. rewrite (stop_finished LA V 0), emit_written. destruct (finished _ _ _ _ _) as [stop x']. cbn [snd].
  destruct stop; [|rewrite tcopy' by auto; cbn [bind]]; (split; [reflexivity|]); (split; [exact HW|]); cbn [kW kcore kprev kdW]; rewrite core_lens' by auto; auto.
Qed.

(** ** the exact phase *)
Section Exact.
Context (tol_init : N) (fuel : nat).
Hypothesis Hgood : (o = 4 \/ 6 <= o)%nat.
Hypothesis Hf : (o < fuel)%nat.
Let EX := tk_exact_phase clk rank0 (svd LA) V ranks tol limit maxiter resprint tol_init.
Lemma tk_exact_phase_ok iter p : tgood p ->
  alsTucker_DT_sub LA clk rank0 fuel V tol tol_init limit maxiter resprint iter p = Ok (EX (Z.to_nat (maxiter + 1 - iter)) iter (zfacs V ranks) p) /\
  tgood (snd (EX (Z.to_nat (maxiter + 1 - iter)) iter (zfacs V ranks) p)).
Proof.
  intros Hp. unfold alsTucker_DT_sub. fold o. assert (Hp' := Hp). destruct Hp' as (HW & HC & HP & HD).
  pose proof HW as (HV & LW & LR & HM).
  destruct (for_inv (fun j (D : list (tensor N)) => D = map (fun m => zeros [nth m (lens V) 0%nat; nth m ranks 0%nat]) (seq 0 j))
     (fun i acc => Wi <- lget (kW p) i ;; Ok (acc ++ [zeros [nrow Wi; ncol Wi]])) 0 o []) as (Wp & EWp & HWp).
  { lia. } { reflexivity. }
  { intros j D Hj ->. rewrite (lget_ok (kW p) j tnil) by (rewrite LW; fold o; lia). cbn [bind]. fold (fac (kW p) j).
    assert (X := HM j ltac:(fold o; lia)). rewrite (mat_nrow _ _ _ X), (mat_ncol _ _ _ X). eexists; split; [reflexivity|].
    rewrite seq_S, map_app. reflexivity. }
  rewrite EWp. cbn [bind]. rewrite mk_seqV_ok. cbn [bind].
  destruct (tree_build o fuel) as (parent & sibling & Et & Htree); [lia|lia|]. rewrite Et. cbn [bind].
  rewrite (mk_Yend_ok V ranks) by auto using H18. cbn [bind].
  assert (EZ : Wp = zfacs V ranks) by (rewrite HWp; reflexivity). rewrite EZ. clear EZ HWp EWp Wp.
  set (body := Tucker_sub_iter _ _ _ _ _ _ _ _ _ _ _ _ _). unfold rounds.
  assert (Hloop : forall n it s prev, tgood (sk s) -> lens (syend s) = ttmc_lens V (kW p) (others (o - 1) o) -> sseqY s = lbuf o -> dW_ok V ranks prev -> sprevW s = prev ->
     exists f s', for_iter n it body s = Ok (f, fst (EX n it prev (sk s)), s') /\ sk s' = snd (EX n it prev (sk s)) /\ tgood (sk s')).
  { induction n as [|n IH]; intros it s prev Hs HY Hsq' Hpr Epr; cbn [for_iter].
    - exists Go, s. auto.
    - unfold EX. cbn [tk_exact_phase]. fold EX. unfold body at 1, Tucker_sub_iter. rewrite tk_due_ok. cbn [bind].
      assert (Hc' : (if tk_due maxiter resprint it then Tucker_DT_check clk rank0 V tol limit false (lbuf o) it (sk s) else Ok (false, sk s))
          = Ok (if tk_due maxiter resprint it then tk_exact_check clk rank0 V tol limit it (sk s) else (false, sk s)) /\
          tgood (snd (if tk_due maxiter resprint it then tk_exact_check clk rank0 V tol limit it (sk s) else (false, sk s)))).
      { destruct (tk_due maxiter resprint it); [apply tk_exact_check_ok; auto|auto]. }
      destruct Hc' as (-> & Hg). cbn [bind]. destruct (if tk_due maxiter resprint it then _ else _) as [stop k1]. cbn [snd] in Hg. destruct stop.
      + exists Break, (with_sk s k1). cbn [bind with_sk sk]. auto.
      + destruct Hg as (P1 & P2 & P3 & P4). rewrite Hsq', Epr.
        assert (HP' : tucker_ok V prev ranks) by (apply (dW_tucker V ranks (kW k1)); auto).
        destruct (sub_sweep_ok RL LA Hsq Hsvd V ranks H18 Hr fuel parent sibling Hf Htree ltac:(fold o; lia) (kcore k1) prev (kW k1) (syend s)) as (Y' & Es & HY'); auto.
        { rewrite HY. unfold o. rewrite <- !(Y_lens V ranks H18) by (auto; fold o; lia). auto. }
        fold o in Es. rewrite Es. cbn [bind]. fold o.
        set (W' := hooi_aligned_upto (svd LA) V ranks prev o (kW k1)) in *.
        assert (HW' : tucker_ok V W' ranks) by (apply (aligned_tucker LA V ranks H10 Hr Hsvd); auto).
        assert (Eup := tdw_update_ok RL V ranks H10 tol_init W' (kdW k1) prev (tucker_dW V ranks W' HW') P4 Hpr). fold o in Eup. rewrite Eup. clear Eup. cbn [bind].
        change (tchanged V W' prev) with (differences V W' prev). rewrite (count_forall LA V 0 clk).
        match goal with |- context [forallb ?f (seq 0 o)] => change (forallb f (seq 0 o)) with (settled V tol_init W' (differences V W' prev)) end.
        cbv zeta. cbn [kdW]. fold o. fold W'.
        assert (Hg : tgood (mkTk W' (tucker_core V W') (kprev k1) (differences V W' prev) (kdn k1) (kio k1))).
        { split; [exact HW'|]. cbn [kcore kprev kdW]. split; [apply core_lens'; auto|]. split; [auto|]. apply (tchanged_ok V ranks W' prev). apply tucker_dW; auto. }
        destruct (settled V tol_init W' (differences V W' prev)).
        * eexists Return, _. cbn [bind]. split; [reflexivity|]. cbn [sk]. auto.
        * cbn [bind]. match goal with |- context [for_iter n (it + 1) body ?s2] => destruct (IH (it + 1)%Z s2 W') as (f & s' & E & E2 & E3) end.
          { exact Hg. } { cbn [syend]. rewrite HY'. auto. } { reflexivity. } { apply tucker_dW; auto. } { reflexivity. }
          cbn [sk] in E, E2. exists f, s'. auto. }
  destruct (Hloop (Z.to_nat (maxiter + 1 - iter)) iter (mkTS p (zeros (ttmc_lens V (kW p) (others (o - 1) o))) (lbuf o) (zfacs V ranks) sempty n0) (zfacs V ranks)) as (f & s' & E & E2 & E3); auto.
  { apply zfacs_ok. }
  fold o. rewrite E. cbn [bind]. cbn [sk] in E2 |- *. rewrite E2. split; [|rewrite <- E2; auto]. destruct (EX _ _ _ _); reflexivity.
Qed.
End Exact.

(** ** the approximate phase *)
Section Approx.
Context (tol_init : N).
Lemma tk_approx_check_ok iter s : tgood (sk s) ->
  let '(stop, first, k) := tk_approx_check clk rank0 V tol limit maxiter bench iter (sfirst s) (sk s) in
  Tucker_PP_check clk rank0 V tol limit bench maxiter (lbuf o) iter s = Ok (stop, mkTS k (syend s) (sseqY s) (sprevW s) (smp s) first) /\ tgood k.
Proof.
  intros (HW & HC & HP & HD). unfold Tucker_PP_check. rewrite tmeasure_timed by auto. cbn [bind]. unfold tk_approx_check.
  destruct (timed clk (kio (sk s))) as [dt x]. cbn [fst snd]. unfold tk_stop, wtime, set_st. cbn [ck st_time rows].
  replace (ck x + 1)%nat with (S (ck x)) by lia. rewrite !emit_written.
  assert (Hg : forall (c : bool) d x', tgood (mkTk (kW (sk s)) (tucker_core V (kW (sk s))) (if c then kprev (sk s) else tucker_core V (kW (sk s))) (kdW (sk s)) d x')).
  { intros c d x'. split; [exact HW|]. cbn [kcore kprev kdW]. rewrite core_lens' by auto. split; [reflexivity|]. split; [|exact HD]. destruct c; [exact HP|apply core_lens'; auto]. }
  destruct bench; [destruct rank0; [destruct (Z.eqb iter maxiter) eqn:Em|]|]; cbn [negb]; rewrite (stop_finished LA V 0);
    destruct (finished _ _ _ _ _) as [stop x'] eqn:Ef; (split; [|apply Hg]); try (destruct stop, (Z.eqb iter maxiter); cbn [orb]);
    try discriminate Em; try reflexivity; try (rewrite tcopy' by auto; reflexivity).
Qed.
Definition tstands (k0 : tk_state (N:=N)) (j : nat) (s : tk_sub (N:=N)) (first : N) (k : tk_state (N:=N)) : Prop :=
  tgood (sk s) /\ tgood k /\ lens (syend s) = ttmc_lens V (kW k0) (others (o - 1) o) /\ sseqY s = lbuf o /\ sfirst s = first /\
  (j = 0%nat -> sk s = k0 /\ k = mkTk (kW k0) (kcore k0) (kprev k0) (zfacs V ranks) (kdn k0) (kio k0)) /\
  (j <> 0%nat -> sk s = k /\ sprevW s = kW k0 /\ ops_ok V (kW k0) (smp s)).
Definition tleave (j : nat) (k : tk_state (N:=N)) : bool := negb (Nat.eqb j 0) && negb bench && too_far V tol_init (kW k) (kdW k).
Definition tentry (iter : Z) (j : nat) (first : N) (k : tk_state (N:=N)) : bool * N * tk_state (N:=N) :=
  if tk_due maxiter resprint iter || Nat.eqb j 0 then tk_approx_check clk rank0 V tol limit maxiter bench iter first k else (false, first, k).
Lemma tk_iter_ok k0 i0 j s first k : tgood k0 -> negb bench && too_far V tol_init (kW k0) (kdW k0) = false -> tstands k0 j s first k ->
  let it := (i0 + Z.of_nat j)%Z in
  let r := Tucker_PP_iter LA clk rank0 V tol tol_init limit maxiter resprint bench (lbuf o) i0 it s in
  if tleave j k then r = Ok (Return, s) else
  let '(stop, first', k') := tentry it j first k in
  exists s', if stop then r = Ok (Break, s') /\ sk s' = k' /\ tgood k'
             else r = Ok (Go, s') /\ tstands k0 (S j) s' first' (tk_step (svd LA) V ranks (kW k0) k').
Proof.
  intros Hk0 Hfar (Hs & Hk & HY & Hsq' & Hfst & H0 & Hj) it r. subst r. unfold Tucker_PP_iter. fold o.
  assert (Hcnt : exists c, (if bench then Ok 0%nat else dw_count o tol_init (kW (sk s)) (kdW (sk s))) = Ok c /\ (0 <? c)%nat = negb bench && too_far V tol_init (kW (sk s)) (kdW (sk s))).
  { destruct bench; [exists 0%nat; auto|]. eexists. split; [apply (tdw_count_ok V ranks H10); [apply tucker_dW|]; apply Hs|]. cbn [negb andb]. apply count_exists; auto. }
  destruct Hcnt as (c & -> & Ec). cbn [bind]. rewrite Ec. clear Ec c.
  assert (Hit : (it =? i0)%Z = (j =? 0)%nat).
  { unfold it. clear. destruct (Nat.eqb_spec j 0); [subst; apply Z.eqb_eq; lia|apply Z.eqb_neq; lia]. }
  rewrite Hit. clear Hit. unfold tleave.
  assert (Htail : forall s1, sk s1 = k -> sfirst s1 = first -> lens (syend s1) = ttmc_lens V (kW k0) (others (o - 1) o) -> sseqY s1 = lbuf o -> sprevW s1 = kW k0 -> ops_ok V (kW k0) (smp s1) ->
    let '(stop, first', k') := tentry it j first k in
    exists s', let r := (c <- tk_checks it maxiter resprint ;;
      '(stop, s) <- (if c || (j =? 0)%nat then Tucker_PP_check clk rank0 V tol limit bench maxiter (lbuf o) it s1 else Ok (false, s1)) ;;
      if stop then Ok (Break, s)
      else
        let k := sk s in
        '(core, (W, dW, Y_end, seq_Y)) <- Tucker_PP_sweep LA V (kcore k) (smp s) (sprevW s) (lbuf o) (kW k, kdW k, syend s, sseqY s) ;;
        Ok (Go, mkTS (mkTk W core (kprev k) dW (kdn k) (kio k)) Y_end seq_Y (sprevW s) (smp s) (sfirst s))) in
      if stop : bool then r = Ok (Break, s') /\ sk s' = k' /\ tgood k'
      else r = Ok (Go, s') /\ tstands k0 (S j) s' first' (tk_step (svd LA) V ranks (kW k0) k')).
  { intros s1 E1 E2 E3 E4 E5 E6. rewrite tk_due_ok. cbn [bind]. unfold tentry.
    assert (Hsw : forall s2 k', sk s2 = k' -> tgood k' -> lens (syend s2) = ttmc_lens V (kW k0) (others (o - 1) o) -> sseqY s2 = lbuf o -> sprevW s2 = kW k0 -> ops_ok V (kW k0) (smp s2) ->
       exists s', (let k := sk s2 in
        '(core, (W, dW, Y_end, seq_Y)) <- Tucker_PP_sweep LA V (kcore k) (smp s2) (sprevW s2) (lbuf o) (kW k, kdW k, syend s2, sseqY s2) ;;
        Ok (Go, mkTS (mkTk W core (kprev k) dW (kdn k) (kio k)) Y_end seq_Y (sprevW s2) (smp s2) (sfirst s2))) = Ok (Go, s') /\
        tstands k0 (S j) s' (sfirst s2) (tk_step (svd LA) V ranks (kW k0) k')).
    { intros s2 k' F1 (P1 & P2 & P3 & P4) F3 F4 F5 F6. cbv zeta. rewrite F1, F4, F5. pose proof Hk0 as (Q1 & _).
      assert (Es := PTPP2.PP_sweep_ok RL LA V ranks H18 Hr Hsq Hsvd (kcore k') (smp s2) (kW k0) (kW k') (kdW k') (syend s2) P2 Q1 P1 P4 F6 F3).
      fold o in Es. assert (Hok := PTPP2.tpp_upto_ok LA V ranks H18 Hr Hsvd (kW k0) o (kW k') (kdW k') ltac:(lia) P1 P4).
      unfold tk_step, tpp_sweep. fold o.
      destruct (tpp_upto (svd LA) V ranks (kW k0) (o - 1) (kW k', kdW k')) as [Wa dWa].
      destruct (tpp_upto (svd LA) V ranks (kW k0) o (kW k', kdW k')) as [W' dW'] eqn:EU. rewrite Es. cbn [bind snd].
      destruct Hok as (O1 & O2). eexists. split; [reflexivity|]. set (core' := ttm _ _ _).
      assert (LC' : lens core' = ranks).
      { unfold core'. rewrite ttm_lens, pp_ttmc_lens. unfold o. rewrite <- (Y_lens V ranks H18) by (auto; fold o; lia). rewrite lset_lset.
        destruct O1 as (_ & _ & _ & O1). rewrite (mat_ncol _ _ _ (O1 (order V - 1)%nat ltac:(fold o; lia))). apply lset_self. }
      assert (Htok : tgood (mkTk W' core' (kprev k') dW' (kdn k') (kio k'))).
      { split; [exact O1|]. cbn [kcore kprev kdW]. auto. }
      split; [exact Htok|]. split; [exact Htok|]. cbn [sk syend sseqY sprevW smp sfirst]. split; [apply pp_ttmc_lens|]. split; [reflexivity|]. split; [reflexivity|].
      split; [discriminate|]. intros _. auto. }
    destruct (tk_due maxiter resprint it || (j =? 0)%nat).
    - assert (Ha := tk_approx_check_ok it s1). rewrite E1, E2 in Ha. destruct (tk_approx_check _ _ _ _ _ _ _ _ _ _) as [[stop f'] k'].
      destruct (Ha Hk) as (Ha' & Hg). rewrite Ha'. cbn [bind]. destruct stop.
      + eexists. split; [reflexivity|]. split; [reflexivity|exact Hg].
      + apply (Hsw (mkTS k' (syend s1) (sseqY s1) (sprevW s1) (smp s1) f') k'); auto.
    - cbn [bind]. rewrite <- E2. apply (Hsw s1 k); auto. }
  destruct (Nat.eq_dec j 0) as [->|Hj0].
  - destruct (H0 eq_refl) as [Eb Ep]. rewrite Eb, Hfar. cbn [Nat.eqb negb andb].
    destruct Hk0 as (P1 & P2 & P3 & P4). cbv zeta. assert (Edw := tmk_dW_ok RL V ranks H10 _ P1). fold o in Edw. rewrite Edw. cbn [bind]. clear Edw.
    destruct (operators_ok RL V ltac:(fold o; lia) (kW k0) Ho (tucker_shapes _ _ _ P1)) as (mp & Em & Ht1 & Ht2). fold o in Em. rewrite Em. cbn [bind].
    cbn [Nat.eqb] in Htail. apply (Htail (mkTS (mkTk (kW k0) (kcore k0) (kprev k0) (zfacs V ranks) (kdn k0) (kio k0)) (syend s) (sseqY s) (kW k0) mp (sfirst s))); auto. split; auto.
  - destruct (Hj Hj0) as (Eb & Epr & Ht). rewrite Eb.
    assert ((j =? 0)%nat = false) as Ek by (apply Nat.eqb_neq; auto). rewrite Ek in *. cbn [negb andb].
    destruct (negb bench && too_far V tol_init (kW k) (kdW k)); [reflexivity|]. cbn [bind]. apply Htail; auto.
Qed.
Lemma tk_approx_phase_ok iter p : tgood p ->
  alsTucker_PP_sub LA clk rank0 V tol tol_init limit maxiter resprint bench iter p
  = Ok (tk_approx_phase clk rank0 (svd LA) V ranks tol limit maxiter resprint bench tol_init iter p) /\
  tgood (snd (tk_approx_phase clk rank0 (svd LA) V ranks tol limit maxiter resprint bench tol_init iter p)).
Proof.
  intros Hp. assert (Hp' := Hp). destruct Hp' as (HW & HC & HP & HD). unfold alsTucker_PP_sub. fold o.
  rewrite mk_seqV_ok. cbn [bind]. rewrite (mk_Yend_ok V ranks) by auto using H18. cbn [bind]. unfold rounds, tk_approx_phase.
  set (body := Tucker_PP_iter _ _ _ _ _ _ _ _ _ _ _ _).
  destruct (Z.leb_spec iter maxiter) as [Hle|Hgt].
  2:{ replace (Z.to_nat (maxiter + 1 - iter)) with 0%nat by lia. cbn [for_iter bind sk snd]. auto. }
  destruct (negb bench && too_far V tol_init (kW p) (kdW p)) eqn:Efar.
  { replace (Z.to_nat (maxiter + 1 - iter)) with (S (Z.to_nat (maxiter - iter))) by lia. cbn [for_iter]. unfold body at 1, Tucker_PP_iter. fold o.
    destruct bench; [discriminate|]. cbn [negb andb] in Efar. cbn [sk]. rewrite (tdw_count_ok V ranks H10) by (auto using H10; apply tucker_dW; auto). cbn [bind].
    rewrite (count_exists). match goal with |- context [existsb ?f ?l] => change (existsb f l) with (too_far V tol_init (kW p) (kdW p)) end. rewrite Efar. cbn [bind sk]. auto. }
  assert (Hloop : forall n j s first q, (n = 0%nat -> j <> 0%nat) -> tstands p j s first q ->
     exists f it s', for_iter n (iter + Z.of_nat j) body s = Ok (f, it, s') /\
       ((match f with Return => it | _ => if bench then (it + 1)%Z else it end), sk s') =
         tk_approx_loop clk rank0 (svd LA) V ranks tol limit maxiter resprint bench tol_init (kW p) n j (iter + Z.of_nat j) first q /\
       tgood (sk s')).
  { induction n as [|n IH]; intros j s first q Hn Hst; cbn [for_iter tk_approx_loop].
    - exists Go, (iter + Z.of_nat j)%Z, s. split; [reflexivity|]. destruct Hst as (Hs & Hq & _ & _ & _ & _ & Hk). destruct (Hk (Hn eq_refl)) as (-> & _). auto.
    - assert (Hh := tk_iter_ok p iter j s first q Hp Efar Hst). cbv zeta in Hh. change (Tucker_PP_iter LA clk rank0 V tol tol_init limit maxiter resprint bench (lbuf o) iter (iter + Z.of_nat j) s) with (body (iter + Z.of_nat j)%Z s) in Hh.
      change (negb (j =? 0)%nat && negb bench && too_far V tol_init (kW q) (kdW q)) with (tleave j q). destruct (tleave j q) eqn:El.
      + rewrite Hh. cbn [bind]. exists Return, (iter + Z.of_nat j)%Z, s. split; [reflexivity|]. destruct Hst as (Hs & Hq & _ & _ & _ & _ & Hk).
        assert (j <> 0%nat) by (intros ->; discriminate). destruct Hk as (-> & _); auto.
      + fold (tentry (iter + Z.of_nat j) j first q). destruct (tentry (iter + Z.of_nat j) j first q) as [[stop first'] k'].
        destruct Hh as (s' & Hh). destruct stop.
        * destruct Hh as (-> & Eb & Hg). exists Break, (iter + Z.of_nat j)%Z, s'. cbn [bind]. split; [reflexivity|]. rewrite Eb. auto.
        * destruct Hh as (-> & Hst'). cbn [bind]. replace (iter + Z.of_nat j + 1)%Z with (iter + Z.of_nat (S j))%Z by lia. apply IH; auto. }
  destruct (Hloop (Z.to_nat (maxiter + 1 - iter)) 0%nat (mkTS p (zeros (ttmc_lens V (kW p) (others (o - 1) o))) (lbuf o) [] sempty n0) n0
     (mkTk (kW p) (kcore p) (kprev p) (zfacs V ranks) (kdn p) (kio p))) as (f & it & s' & E & E2 & E3).
  { lia. }
  { split; [exact Hp|]. split; [split; [exact HW|cbn [kcore kprev kdW]; split; [exact HC|split; [exact HP|apply zfacs_ok]]]|].
    cbn [syend sseqY sfirst sk]. split; [reflexivity|]. split; [reflexivity|]. split; [reflexivity|]. split; [auto|]. intros []; reflexivity. }
  cbn [Z.of_nat] in E, E2. rewrite Z.add_0_r in E, E2. 
  match goal with |- context [for_iter ?a ?b ?c ?d] => replace (for_iter a b c d) with (Ok (f, it, s')) by (symmetry; exact E) end. cbn [bind]. rewrite <- E2. auto.
Qed.
End Approx.

(** ** the driver *)
Section Driver.
Context (fuel : nat).
Hypothesis Hgood : bench = true \/ (o = 4 \/ 6 <= o)%nat /\ (o < fuel)%nat.
Lemma tk_loop_ok : forall wf tol_init iter k, tgood k ->
  tk_while wf (fun ti => alsTucker_DT_sub LA clk rank0 fuel V tol ti limit maxiter resprint)
     (fun ti => alsTucker_PP_sub LA clk rank0 V tol ti limit maxiter resprint bench) tol maxiter bench tol_init iter k
  = match tk_driver_loop clk rank0 (svd LA) V ranks tol limit maxiter resprint bench wf tol_init iter k with Some r => Ok r | None => Err LoopFuel end.
Proof.
  induction wf as [|wf IH]; intros ti iter k Hk; cbn [tk_while tk_driver_loop]; (destruct (nltb tol (kdn k) && (iter <=? maxiter)%Z); [|reflexivity]); [reflexivity|].
  assert (He : (if bench then Ok (iter, k) else alsTucker_DT_sub LA clk rank0 fuel V tol ti limit maxiter resprint iter k)
     = Ok (if bench then (iter, k) else tk_exact_phase clk rank0 (svd LA) V ranks tol limit maxiter resprint ti (Z.to_nat (maxiter + 1 - iter)) iter (zfacs V ranks) k) /\
     tgood (snd (if bench then (iter, k) else tk_exact_phase clk rank0 (svd LA) V ranks tol limit maxiter resprint ti (Z.to_nat (maxiter + 1 - iter)) iter (zfacs V ranks) k))).
  { destruct bench; [auto|]. destruct Hgood as [|[H1 H2]]; [discriminate|]. apply tk_exact_phase_ok; auto. }
  destruct He as (-> & Hg). cbn [bind]. destruct (if bench then _ else _) as [it1 k1]. cbn [snd] in Hg.
  destruct (tk_approx_phase_ok ti it1 k1 Hg) as (-> & Hg2). cbn [bind].
  destruct (tk_approx_phase _ _ _ _ _ _ _ _ _ _ _ _ _) as [it2 k2]. cbn [snd] in Hg2. cbv zeta. apply IH; auto.
Qed.
Theorem tk_driver_ok wf core W tol_init x : tucker_ok V W ranks -> lens core = ranks ->
  alsTucker_PP LA clk rank0 wf fuel V core W tol tol_init limit maxiter resprint bench x
  = match tk_algorithm clk rank0 (svd LA) V ranks tol limit maxiter resprint bench tol_init wf core W x with Some r => Ok r | None => Err LoopFuel end.
Proof.
  intros HW HC. unfold alsTucker_PP, wtime, set_st. cbn [ck st_time rows].
  assert (E := tmk_dW_ok RL V ranks H10 W HW). rewrite E. cbn [bind]. rewrite tk_loop_ok.
  - unfold tk_algorithm. replace (ck x + 1)%nat with (S (ck x)) by lia.
    change (nlit (10 # 1)) with (@nlit N 10).
    destruct (tk_driver_loop _ _ _ _ _ _ _ _ _ _ _ _ _ _) as [[it k]|]; reflexivity.
  - split; [exact HW|]. cbn [kcore kprev kdW]. split; [auto|]. split; [auto|apply zfacs_ok].
Qed.
End Driver.
End P.
