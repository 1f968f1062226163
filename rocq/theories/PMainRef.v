(** alsCP_DT and alsTucker_DT of the model compute exactly what the algorithms of Spec14 compute *)
From Coq Require Import List ZArith QArith Lia Bool Arith Permutation Ring.
From Verif Require Import Base Num Tensor Spec Spec2 Spec4 Spec7 Spec8 Spec9 Spec12 Spec13 Spec14 MCommon MCP MTucker PBase PTensor PSum PMttkrp PPart PMat PKhatri PGrad PKhatriBad PDT PDTSweep PALS PDrivers PTree PBuildV PPP
  PPPDriver PTtm PTucker PHosvd PTDT PSign PTSweep PTDrivers PTPP PTPP2 PMatAlg PSolve PNormalize PPPSweep PTPPDriver PDriverRef PMono.
Import ListNotations.
Local Close Scope Q_scope.

Section P.
Context {N : num} (RL : ring_laws N) (LA : lapack N).
Local Open Scope num_scope.
Context (V : tensor N) (clk : nat -> N) (rank0 : bool) (tol limit : N) (maxiter resprint : Z) (bench : bool) (fuel : nat).
Let o := order V.
Hypothesis Hres : resprint <> 0%Z.
Hypothesis Hf : (o < fuel)%nat.

Section CP.
Context (R : nat) (lambda : N) (F : list (tensor N)).
Hypothesis Hsh : svd_shaped (svd LA).
Hypothesis Ho : (o = 4 \/ 6 <= o <= 19)%nat.
Hypothesis HF : mats_ok V F R.
Let solve := pinv_solve (svd LA) R.
Definition cgood (s : cp_state N) : Prop := factors_ok V (cpW s) R /\ mats_ok V (cpG s) R.
Definition cp_of (s : dt_state (N:=N)) : cp_state N := mkCp (dtW s) (dtG s) (dtpn s) (dtio s).
Lemma dt_check_ok iter s : cgood (cp_of s) -> dtseq s = lbuf o ->
  exists s', alsCP_DT_check clk rank0 V tol limit bench iter s = Ok (fst (dt_check clk rank0 V tol limit bench R iter (cp_of s)), s') /\
    cp_of s' = snd (dt_check clk rank0 V tol limit bench R iter (cp_of s)) /\ dtS s' = dtS s /\ dtseq s' = lbuf o.
Proof.
  intros (HW & HG) Hsq. unfold alsCP_DT_check. cbn [cp_of cpW cpG] in *. rewrite Hsq.
  assert (Em := measure_timed RL LA V R clk (dtW s) (dtG s) (dtio s)). fold o in Em. rewrite Em by (auto; try lia; apply HG). clear Em. cbn [bind]. unfold dt_check. cbn [cp_of cpW cpG cpn cpio].
  destruct (timed clk (dtio s)) as [dt x]. cbn [fst snd]. rewrite !emit_written.
  destruct bench; [destruct (Z.eqb iter 0)|]; rewrite (stop_finished LA V 0); destruct (finished _ _ _ _ _) as [stop x'];
    (eexists; split; [reflexivity|split; [reflexivity|split; reflexivity]]).
Qed.
Lemma dt_check_good iter s : cgood s -> cgood (snd (dt_check clk rank0 V tol limit bench R iter s)).
Proof. intros H. unfold dt_check. destruct (timed _ _). destruct (finished _ _ _ _ _). exact H. Qed.
Theorem dt_algorithm_ok W G x : factors_ok V W R -> mats_ok V G R ->
  let r := dt_algorithm clk rank0 V tol limit maxiter resprint bench solve R lambda F W G x in
  exists s, alsCP_DT LA clk rank0 fuel V W G F tol limit maxiter lambda resprint bench x = Ok (fst r, s) /\ cp_of s = snd r /\ cgood (snd r).
Proof.
  intros HW HG r. unfold alsCP_DT. fold o.
  rewrite (W_lget LA V R W 0) by (auto; fold o; lia). cbn [bind].
  destruct (W_dims V R W 0 HW ltac:(fold o; lia)) as [_ Hc]. rewrite Hc. rewrite (mk_regul_ok RL). cbn [bind].
  unfold wtime, set_st. cbn [ck st_time rows]. rewrite mk_seqV_ok. cbn [bind].
  destruct (tree_build o fuel) as (parent & sibling & Et & Htree); [lia|lia|]. rewrite Et. cbn [bind].
  set (body := alsCP_DT_iter _ _ _ _ _ _ _ _ _ _ _ _ _ _). unfold rounds.
  set (sw := fun W => rescaled (als_sweep solve lambda V F R W)). set (gr := als_grads solve lambda V F R).
  assert (Hloop : forall n it s, cgood (cp_of s) -> lens (dtS s) = [R; R] -> dtseq s = lbuf o ->
     let r := dt_loop clk rank0 V tol limit maxiter resprint bench R sw gr n it (cp_of s) in
     exists f s', for_iter n it body s = Ok (f, fst r, s') /\ cp_of s' = snd r /\ cgood (snd r)).
  { induction n as [|n IH]; intros it s Hs HS Hsq; cbn [for_iter dt_loop].
    - exists Go, s. cbn [fst snd]. auto.
    - unfold body at 1, alsCP_DT_iter, zmod. destruct (Z.eqb_spec resprint 0); [contradiction|]. cbn [bind]. fold (check_due maxiter resprint it).
      assert (Hc' : exists s1, (if check_due maxiter resprint it then alsCP_DT_check clk rank0 V tol limit bench it s else Ok (false, s))
          = Ok (fst (if check_due maxiter resprint it then dt_check clk rank0 V tol limit bench R it (cp_of s) else (false, cp_of s)), s1) /\
          cp_of s1 = snd (if check_due maxiter resprint it then dt_check clk rank0 V tol limit bench R it (cp_of s) else (false, cp_of s)) /\
          cgood (cp_of s1) /\ dtS s1 = dtS s /\ dtseq s1 = lbuf o).
      { destruct (check_due maxiter resprint it).
        - destruct (dt_check_ok it s Hs Hsq) as (s1 & E1 & E2 & E3 & E4). exists s1. split; [exact E1|]. split; [exact E2|]. split; [rewrite E2; apply dt_check_good; auto|auto].
        - exists s. cbn [fst snd]. auto 10. }
      destruct Hc' as (s1 & -> & Es1 & Hg1 & HS1 & Hq1). cbn [bind].
      destruct (if check_due maxiter resprint it then dt_check clk rank0 V tol limit bench R it (cp_of s) else (false, cp_of s)) as [stop p1].
      cbn [fst snd] in *. subst p1. destruct stop.
      + exists Break, s1. cbn [bind fst snd]. auto.
      + destruct Hg1 as (P1 & P2). rewrite Hq1. cbn [cp_of cpW cpG] in P1, P2.
        destruct (alsCP_DT_sweep_ok RL LA V R Hsh parent sibling fuel Htree ltac:(fold o; lia) ltac:(fold o; lia) Hf F
           (dtG s1) (dtW s1) (dtS s1) lambda) as (Sm' & Es & HS'); auto.
        { rewrite HS1. auto. }
        fold o in Es. rewrite Es. cbn [bind].
        match goal with |- context [for_iter n (it + 1) body ?s2] => destruct (IH (it + 1)%Z s2) as (f & s' & E & E2 & E3) end.
        { split; cbn [cp_of cpW cpG dtW dtG].
          - apply PMono.rescaled_factors. apply (sweep_factors RL LA V R Hsh); auto.
          - apply (als_grads_mats RL LA V R Hsh); auto. }
        { exact HS'. } { reflexivity. }
        exists f, s'. split; [exact E|]. split; [exact E2|exact E3]. }
  destruct (Hloop (Z.to_nat (maxiter + 1 - 0)) 0%Z (mkDt W G (zeros [R; R]) (lbuf o) n0 (mkIo (S (ck x)) (clk (ck x)) (rows x)))) as (f & s' & E & E2 & E3).
  { split; auto. } { reflexivity. } { reflexivity. }
  rewrite E. cbn [bind]. clear E. exists s'. unfold r, dt_algorithm. fold sw gr. unfold cp_of in E2, E3 |- *. cbn [dtW dtG dtpn dtio] in *.
  replace (ck x + 1)%nat with (S (ck x)) by lia. rewrite Z.sub_0_r in E2, E3 |- *.
  destruct (dt_loop _ _ _ _ _ _ _ _ _ _ _ _ _ _) as [it q]. cbn [fst snd] in *. auto.
Qed.
End CP.

Section Tucker.
Context (ranks : list nat).
Hypothesis Ho : (o = 2 \/ o = 4 \/ 6 <= o <= 10)%nat.
Hypothesis Hr : ranks_ok (lens V) ranks.
Hypothesis Hsq : sqrt_nonneg (N := N).
Hypothesis Hsvd : svd_trunc_shaped (svd LA).
Local Lemma H10 : (2 <= order V <= 10)%nat. Proof. fold o. lia. Qed.
Local Lemma H18 : (2 <= order V <= 18)%nat. Proof. fold o. lia. Qed.
Definition kgood (k : tk_state (N:=N)) : Prop := tucker_ok V (kW k) ranks /\ lens (kcore k) = ranks /\ lens (kprev k) = ranks.
Lemma tmeasure_timed (core prev : tensor N) W x : tucker_ok V W ranks ->
  tk_measure clk V core prev W x = Ok (tucker_core V W, core_dist V W prev, tucker_resid V W, fst (timed clk x), snd (timed clk x)).
Proof.
  intros HW. unfold tk_measure, check_begin, wtime. fold o. assert (Ho' := H10).
  rewrite (core_TTMc RL clk V ranks) by auto. cbn [bind].
  assert (Et := transposes RL clk V ranks Ho' W HW). fold o in Et. rewrite Et. cbn [bind].
  rewrite (full_TTMc RL clk V ranks) by auto. cbn [bind]. rewrite mk_seqV_ok. cbn [bind].
  rewrite lbuf_take. cbn [bind]. unfold order at 1. rewrite (full_lens clk V ranks) by auto. fold (order V). fold o. rewrite lbuf_take. cbn [bind].
  pose proof HW as (HV & _).
  rewrite (assign_diff RL); auto.
  - cbn [bind]. unfold check_end, wtime, set_st, timed. cbn [ck st_time rows fst snd].
    replace (ck x + 1)%nat with (S (ck x)) by lia. replace (ck x + 2)%nat with (S (S (ck x))) by lia. replace (ck x + 3)%nat with (S (S (S (ck x)))) by lia. reflexivity.
  - apply letters_chr_nodup; lia.
  - rewrite letters_len. unfold order. rewrite (full_lens clk V ranks) by auto. auto.
  - apply tabulate_wf.
  - rewrite (full_lens clk V ranks) by auto. auto.
  - rewrite (full_lens clk V ranks) by auto. auto.
Qed.
Lemma core_lens' W : tucker_ok V W ranks -> lens (tucker_core V W) = ranks.
Proof. intros. apply (core_lens clk V ranks); auto using H10. Qed.
Lemma tcopy' prev W : tucker_ok V W ranks -> lens prev = ranks -> copy_core prev (tucker_core V W) (lbuf o) = Ok (tucker_core V W).
Proof.
  intros HW HP. apply (copy_core_ok RL clk V).
  - apply H10.
  - apply tabulate_wf.
  - apply (core_order V ranks). auto.
  - rewrite HP. symmetry. apply core_lens'. auto.
Qed.
Lemma tdt_check_ok iter k : kgood k ->
  Tucker_DT_check clk rank0 V tol limit bench (lbuf o) iter k = Ok (tdt_check clk rank0 V tol limit bench iter k) /\
  kgood (snd (tdt_check clk rank0 V tol limit bench iter k)).
Proof.
  intros (HW & HC & HP). unfold Tucker_DT_check. rewrite tmeasure_timed by auto. cbn [bind]. unfold tdt_check.
  destruct (timed clk (kio k)) as [dt x]. cbn [fst snd]. unfold tk_stop.
  destruct bench; rewrite (stop_finished LA V 0), emit_written; destruct (finished _ _ _ _ _) as [stop x']; cbn [snd];
  (destruct stop; [|rewrite tcopy' by auto; cbn [bind]]; (split; [reflexivity|]); (split; [exact HW|]); cbn [kW kcore kprev kdW]; rewrite core_lens' by auto; auto).
Qed.
Theorem tdt_algorithm_ok core W x : tucker_ok V W ranks -> lens core = ranks ->
  let r := tdt_algorithm clk rank0 V tol limit maxiter resprint bench (svd LA) ranks core W x in
  alsTucker_DT LA clk rank0 fuel V core W tol limit maxiter resprint bench x = Ok r /\ kgood (snd r).
Proof.
  intros HW HC r. unfold alsTucker_DT. fold o. unfold wtime, set_st. cbn [ck st_time rows]. rewrite mk_seqV_ok. cbn [bind].
  destruct (tree_build o fuel) as (parent & sibling & Et & Htree); [lia|lia|]. rewrite Et. cbn [bind].
  rewrite (mk_Yend_ok V ranks) by auto using H18. cbn [bind].
  fold o. rewrite (ncols_ranks V ranks) by auto using H18. cbn [bind].
  set (body := Tucker_DT_iter _ _ _ _ _ _ _ _ _ _ _ _ _). unfold rounds. set (sw := hooi_sweep (svd LA) V ranks).
  assert (Hloop : forall n it s, kgood (lk s) -> lens (lyend s) = ttmc_lens V W (others (o - 1) o) -> llens s = ranks -> lseqY s = lbuf o ->
     let r := tdt_loop clk rank0 V tol limit maxiter resprint bench sw n it (lk s) in
     exists f s', for_iter n it body s = Ok (f, fst r, s') /\ lk s' = snd r /\ kgood (snd r)).
  { induction n as [|n IH]; intros it s Hs HY HL Hsq'; cbn [for_iter tdt_loop].
    - exists Go, s. cbn [fst snd]. auto.
    - unfold body at 1, Tucker_DT_iter, tk_checks, zmod. destruct (Z.eqb_spec resprint 0); [contradiction|]. cbn [bind]. fold (tk_due maxiter resprint it).
      assert (Hc' : (if tk_due maxiter resprint it then Tucker_DT_check clk rank0 V tol limit bench (lbuf o) it (lk s) else Ok (false, lk s))
          = Ok (if tk_due maxiter resprint it then tdt_check clk rank0 V tol limit bench it (lk s) else (false, lk s)) /\
          kgood (snd (if tk_due maxiter resprint it then tdt_check clk rank0 V tol limit bench it (lk s) else (false, lk s)))).
      { destruct (tk_due maxiter resprint it); [apply tdt_check_ok; auto|auto]. }
      destruct Hc' as (-> & Hg). cbn [bind]. destruct (if tk_due maxiter resprint it then _ else _) as [stop k1]. cbn [snd] in Hg. destruct stop.
      + eexists Break, _. cbn [bind fst snd]. split; [reflexivity|]. cbn [lk]. auto.
      + destruct Hg as (P1 & P2 & P3). rewrite HL, Hsq'.
        destruct (DT_sweep_ok RL LA Hsq Hsvd V ranks H18 Hr fuel parent sibling Hf Htree ltac:(fold o; lia) (kcore k1) (kW k1) (lyend s)) as (Y' & Es & HY'); auto.
        { rewrite HY. unfold o. rewrite <- !(Y_lens V ranks H18) by (auto; fold o; lia). auto. }
        fold o in Es. rewrite Es. cbn [bind].
        match goal with |- context [for_iter n (it + 1) body ?s2] => destruct (IH (it + 1)%Z s2) as (f & s' & E & E2 & E3) end.
        { assert (HW' : tucker_ok V (sw (kW k1)) ranks) by (apply (sweep_tucker LA clk V ranks); auto using H10).
          split; [exact HW'|]. cbn [lk kcore kprev]. split; [apply core_lens'; exact HW'|exact P3]. }
        { cbn [lyend]. rewrite HY'. auto. } { reflexivity. } { reflexivity. }
        exists f, s'. split; [exact E|]. split; [exact E2|exact E3]. }
  destruct (Hloop (Z.to_nat (maxiter + 1 - 0)) 0%Z (mkTL (mkTk W core core [] (nlit (1000 # 1)) (mkIo (S (ck x)) (clk (ck x)) (rows x)))
      (zeros (ttmc_lens V W (others (o - 1) o))) ranks (lbuf o))) as (f & s' & E & E2 & E3).
  { split; auto. } { reflexivity. } { reflexivity. } { reflexivity. }
  fold o. rewrite E. clear E. cbn [bind lk] in *. unfold r, tdt_algorithm. fold sw.
  replace (ck x + 1)%nat with (S (ck x)) by lia. rewrite Z.sub_0_r in E2, E3 |- *.
  destruct (tdt_loop _ _ _ _ _ _ _ _ _ _ _ _) as [it q]. cbn [fst snd] in *. rewrite E2. auto.
Qed.
End Tucker.
End P.
