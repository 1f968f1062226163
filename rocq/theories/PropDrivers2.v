(** C59: the pairwise-perturbation Tucker driver refines the algorithm of Spec13, log included. *)
From Coq Require Import List ZArith QArith Lia Bool Arith Sorting.Sorted.
From Verif Require Import Base Num Tensor Spec Spec2 Spec4 Spec7 Spec8 Spec9 Spec12 Spec13 MCommon MCP MTucker PBase PTensor PSum PMttkrp PMat PGrad PBuildV PTree PDT PDrivers PTtm PTucker PHosvd
  PTDT PSign PTSweep PropTucker PPPDriver PTDrivers PTPP PTPP2 PTPPDriver PropTucker2 PDriverRef PropDrivers PTDriverRef.
Import ListNotations.
Local Close Scope Q_scope.

(** the program returns what the algorithm returns (factors, core, changes, norm, clock readings and log rows); it is still running after [rounds] rounds exactly if the algorithm is *)
Theorem C59_alsTucker_PP_is_the_algorithm :
  forall (N : num), ring_laws N -> sqrt_nonneg (N:=N) ->
  forall (LA : lapack N), svd_trunc_shaped (svd LA) ->
  forall (clock : nat -> N) (rank0 : bool) (V core : tensor N) (W : list (tensor N)) (ranks : list nat) (tol tol_init limit : N)
    (maxiter resprint : Z) (bench : bool) (fuel rounds : nat) (x : io),
  3 <= order V <= 9 -> (bench = true \/ ((order V = 4 \/ 6 <= order V) /\ order V < fuel)) -> resprint <> 0%Z ->
  tucker_ok V W ranks -> ranks_ok (lens V) ranks -> lens core = ranks ->
  alsTucker_PP LA clock rank0 rounds fuel V core W tol tol_init limit maxiter resprint bench x
  = match tk_algorithm clock rank0 (svd LA) V ranks tol limit maxiter resprint bench tol_init rounds core W x with
    | Some r => Ok r | None => Err LoopFuel end.
Proof.
  intros N RL Hsq LA Hsvd clk rank0 V core W ranks tol ti limit mi rp bench fuel rounds x Ho Hg Hrp HW HR LC.
  apply (tk_driver_ok RL LA V ranks); auto.
Qed.
Print Assumptions C59_alsTucker_PP_is_the_algorithm.

Section Log.
Context {N : num} (clk : nat -> N) (rank0 : bool) (svd : tensor N -> nat -> tensor N * tensor N * tensor N) (V : tensor N) (ranks : list nat) (tol limit : N) (maxiter resprint : Z).
Notation seg := (log_segment V tol maxiter).
Definition tlogs (lo hi : Z) (p q : tk_state (N:=N)) : Prop := exists l, rows (kio q) = rows (kio p) ++ l /\ seg lo hi l /\ (rank0 = false -> l = []).
Lemma tlogs_refl lo hi p q : rows (kio q) = rows (kio p) -> tlogs lo hi p q.
Proof. intros E. exists []. rewrite app_nil_r. split; [exact E|]. split; [apply seg_nil|auto]. Qed.
Lemma tlogs_trans lo mid hi p q r : (lo <= mid <= hi)%Z -> tlogs lo mid p q -> tlogs mid hi q r -> tlogs lo hi p r.
Proof.
  intros Hm (l1 & E1 & S1 & R1) (l2 & E2 & S2 & R2). exists (l1 ++ l2). split; [rewrite E2, E1, app_assoc; reflexivity|]. split; [apply (seg_app clk V tol maxiter lo mid hi); auto|].
  intros H. rewrite R1, R2 by auto. reflexivity.
Qed.
Lemma tlogs_weak lo lo' hi p q : (lo' <= lo)%Z -> tlogs lo hi p q -> tlogs lo' hi p q.
Proof.
  intros Hl (l & E & [S F] & H). exists l. split; [exact E|]. split; [|exact H]. split; [exact S|].
  intros r Hr. destruct (F r Hr) as (i & g & ph & dv & t & Er & Hp & Hi). exists i, g, ph, dv, t. split; [exact Er|]. split; [exact Hp|lia].
Qed.
Lemma tlogs_from lo hi p p' q : rows (kio p) = rows (kio p') -> tlogs lo hi p q -> tlogs lo hi p' q.
Proof. intros E (l & E1 & H). exists l. rewrite <- E. auto. Qed.
Lemma twritten_logs it g ph dv t (p q : tk_state (N:=N)) x : (ph = 0 \/ ph = 1) -> (it <= maxiter)%Z -> rows x = rows (kio p) ->
  rows (kio q) = rows (written rank0 (Row (nth 0 (lens V) 0) it g tol ph dv t) x) -> tlogs it it p q.
Proof.
  intros Hp Hi Ex Eq. unfold tlogs. destruct rank0; cbn [written rows] in Eq.
  - eexists. split; [rewrite Eq, Ex; reflexivity|]. split; [apply (seg_one clk); auto|discriminate].
  - exists []. rewrite app_nil_r. split; [congruence|]. split; [apply seg_nil|auto].
Qed.
Lemma tk_exact_check_log it k : (it <= maxiter)%Z -> tlogs it it k (snd (tk_exact_check clk rank0 V tol limit it k)).
Proof.
  intros Hi. unfold tk_exact_check. destruct (timed clk (kio k)) as [dt x] eqn:Et. destruct (finished _ _ _ _ _) as [stop x'] eqn:Ef. cbn [snd].
  eapply (twritten_logs it _ _ _ _ k _ x); [left; reflexivity|exact Hi| |]; cbn [kio].
  - unfold timed in Et. injection Et as _ <-. reflexivity.
  - match type of Ef with finished _ ?g _ _ ?y = _ => assert (E := finished_rows clk tol limit g y) end. rewrite Ef in E. exact E.
Qed.
Lemma tk_exact_log ti : forall n it prev k, (it + Z.of_nat n <= maxiter + 1)%Z ->
  let r := tk_exact_phase clk rank0 svd V ranks tol limit maxiter resprint ti n it prev k in (it <= fst r)%Z /\ tlogs it (fst r) k (snd r).
Proof.
  induction n as [|n IH]; intros it prev k Hn; cbn [tk_exact_phase].
  - cbn. split; [lia|apply tlogs_refl; reflexivity].
  - assert (Hc : tlogs it it k (snd (if tk_due maxiter resprint it then tk_exact_check clk rank0 V tol limit it k else (false, k)))).
    { destruct (tk_due _ _ _); [apply tk_exact_check_log; lia|apply tlogs_refl; reflexivity]. }
    destruct (if tk_due maxiter resprint it then _ else _) as [stop k1]. cbn [snd] in Hc. destruct stop; [cbn; split; [lia|exact Hc]|].
    cbv zeta. set (k2 := mkTk _ _ _ _ _ _). destruct (settled _ _ _ _).
    + cbn. split; [lia|]. destruct Hc as (l & E & H). exists l. auto.
    + destruct (IH (it + 1)%Z (hooi_aligned_upto svd V ranks prev (order V) (kW k1)) k2 ltac:(lia)) as [H1 H2]. split; [lia|].
      apply (tlogs_trans it it _ k k1); [lia|exact Hc|]. apply (tlogs_weak (it + 1)); [lia|]. apply (tlogs_from _ _ k2); [reflexivity|exact H2].
Qed.
Lemma tk_approx_check_log it first k : (it <= maxiter)%Z -> tlogs it it k (snd (tk_approx_check clk rank0 V tol limit maxiter false it first k)).
Proof.
  intros Hi. unfold tk_approx_check. destruct (timed clk (kio k)) as [dt x] eqn:Et. destruct (finished _ _ _ _ _) as [stop x'] eqn:Ef. cbv zeta. cbn [snd].
  eapply (twritten_logs it _ _ _ _ k _ x); [right; reflexivity|exact Hi| |]; cbn [kio].
  - unfold timed in Et. injection Et as _ <-. reflexivity.
  - match type of Ef with finished _ ?g _ _ ?y = _ => assert (E := finished_rows clk tol limit g y) end. rewrite Ef in E. exact E.
Qed.
Lemma tk_step_io W0 k : kio (tk_step svd V ranks W0 k) = kio k.
Proof. unfold tk_step. destruct (tpp_sweep _ _ _ _ _). reflexivity. Qed.
Lemma tk_approx_log ti W0 : forall n j it first k, (it + Z.of_nat n <= maxiter + 1)%Z ->
  let r := tk_approx_loop clk rank0 svd V ranks tol limit maxiter resprint false ti W0 n j it first k in (it <= fst r)%Z /\ tlogs it (fst r) k (snd r).
Proof.
  induction n as [|n IH]; intros j it first k Hn; cbn [tk_approx_loop].
  - cbn. split; [lia|apply tlogs_refl; reflexivity].
  - destruct (negb (j =? 0) && _ && _); [cbn; split; [lia|apply tlogs_refl; reflexivity]|].
    assert (Hc : tlogs it it k (snd (if tk_due maxiter resprint it || (j =? 0) then tk_approx_check clk rank0 V tol limit maxiter false it first k else (false, first, k)))).
    { destruct (_ || _); [apply tk_approx_check_log; lia|apply tlogs_refl; reflexivity]. }
    destruct (if tk_due maxiter resprint it || (j =? 0) then _ else _) as [[stop f1] k1]. cbn [snd] in Hc. destruct stop; [cbn; split; [lia|exact Hc]|].
    destruct (IH (S j) (it + 1)%Z f1 (tk_step svd V ranks W0 k1) ltac:(lia)) as [H1 H2]. cbv zeta. split; [lia|].
    apply (tlogs_trans it it _ k k1); [lia|exact Hc|]. apply (tlogs_weak (it + 1)); [lia|]. apply (tlogs_from _ _ (tk_step svd V ranks W0 k1)); [rewrite tk_step_io; reflexivity|exact H2].
Qed.
Lemma tk_driver_log : forall n ti it k it' q,
  tk_driver_loop clk rank0 svd V ranks tol limit maxiter resprint false n ti it k = Some (it', q) -> (it <= it')%Z /\ tlogs it it' k q.
Proof.
  induction n as [|n IH]; intros ti it k it' q; cbn [tk_driver_loop].
  - destruct (_ && _); [discriminate|]. intros E. injection E as <- <-. split; [lia|apply tlogs_refl; reflexivity].
  - destruct (_ && _) eqn:Ec; [|intros E; injection E as <- <-; split; [lia|apply tlogs_refl; reflexivity]].
    apply andb_true_iff in Ec as [_ Ec]. apply Z.leb_le in Ec.
    destruct (tk_exact_log ti (Z.to_nat (maxiter + 1 - it)) it (zfacs V ranks) k ltac:(lia)) as [A1 A2]. destruct (tk_exact_phase _ _ _ _ _ _ _ _ _ _ _ _ _ _) as [it1 k1]. cbn [fst snd] in *.
    assert (Ha : let r := tk_approx_phase clk rank0 svd V ranks tol limit maxiter resprint false ti it1 k1 in (it1 <= fst r)%Z /\ tlogs it1 (fst r) k1 (snd r)).
    { unfold tk_approx_phase. cbn [negb andb]. destruct (Z.leb_spec it1 maxiter); [|cbn; split; [lia|apply tlogs_refl; reflexivity]].
      destruct (too_far _ _ _ _); [cbn; split; [lia|apply tlogs_refl; reflexivity]|].
      assert (B := tk_approx_log ti (kW k1) (Z.to_nat (maxiter + 1 - it1)) 0 it1 n0 (mkTk (kW k1) (kcore k1) (kprev k1) (zfacs V ranks) (kdn k1) (kio k1)) ltac:(lia)).
      cbv zeta in B |- *. destruct B as [B1 B2]. split; [exact B1|]. eapply tlogs_from; [|exact B2]. reflexivity. }
    destruct (tk_approx_phase _ _ _ _ _ _ _ _ _ _ _ _ _) as [it2 k2]. cbv zeta in Ha. cbn [fst snd] in Ha. destruct Ha as [B1 B2].
    intros E. destruct (IH _ _ _ _ _ E) as [C1 C2]. split; [lia|]. apply (tlogs_trans it it1 it' k k1); [lia|exact A2|]. apply (tlogs_trans it1 it2 it' k1 k2); [lia|exact B2|exact C2].
Qed.
End Log.
(** every line a run that is not a benchmark adds to the log: iteration numbers 0..maxiter in non-decreasing order *)
Theorem C59_log :
  forall (N : num), ring_laws N -> sqrt_nonneg (N:=N) ->
  forall (LA : lapack N), svd_trunc_shaped (svd LA) ->
  forall (clock : nat -> N) (rank0 : bool) (V core : tensor N) (W : list (tensor N)) (ranks : list nat) (tol tol_init limit : N)
    (maxiter resprint : Z) (fuel rounds : nat) (x : io) (ret : bool) (k : tk_state),
  order V = 4 \/ 6 <= order V <= 9 -> order V < fuel -> resprint <> 0%Z ->
  tucker_ok V W ranks -> ranks_ok (lens V) ranks -> lens core = ranks ->
  alsTucker_PP LA clock rank0 rounds fuel V core W tol tol_init limit maxiter resprint false x = Ok (ret, k) ->
  exists new last, rows (kio k) = rows x ++ new /\ log_segment V tol maxiter 0 last new /\ (rank0 = false -> new = []) /\ (ret = false -> last = maxiter + 1)%Z.
Proof.
  intros N RL Hsq LA Hsvd clk rank0 V core W ranks tol ti limit mi rp fuel rounds x ret k Ho Hf Hrp HW HR LC E.
  rewrite (C59_alsTucker_PP_is_the_algorithm N RL Hsq LA Hsvd clk rank0 V core W ranks) in E by (auto; lia). unfold tk_algorithm in E.
  destruct (tk_driver_loop _ _ _ _ _ _ _ _ _ _ _ _ _ _) as [[it q]|] eqn:Ed; [|discriminate]. injection E as <- <-.
  apply tk_driver_log in Ed. destruct Ed as [H1 (l & E1 & E2 & E3)]. exists l, it. cbn [kio rows] in E1. split; [exact E1|]. split; [exact E2|]. split; [exact E3|].
  intros Eb. apply negb_false_iff, Z.eqb_eq in Eb. exact Eb.
Qed.
Print Assumptions C59_log.
(** exact sweeps only (tol_init 1), both phases (tol_init 2), and a benchmark *)
Theorem C59_case :
  let run ti bench := tk_algorithm (fun n => Z.of_nat n : Znum) true (svd LAt) tkV [1; 2; 1; 2] (3%Z : Znum) (1000%Z : Znum) 3%Z 1%Z bench (ti : Znum) 6 (zeros [1; 2; 1; 2]) tkW (mkIo (N:=Znum) 0 0%Z []) in
  let log r := match r with Some (b, k) => Some (b, rows (kio k)) | None => None end in
  svd_trunc_shaped (svd LAt) /\ tucker_ok tkV tkW [1; 2; 1; 2] /\ ranks_ok (lens tkV) [1; 2; 1; 2] /\ order tkV = 4 /\
  log (run 1%Z false) = Some (false, [Row (N:=Znum) 2 1 4%Z 3%Z 0 19%Z 2%Z; Row (N:=Znum) 2 2 267%Z 3%Z 0 29720%Z 5%Z; Row (N:=Znum) 2 3 105%Z 3%Z 0 7511%Z 8%Z]) /\
  log (run 2%Z false) = Some (false, [Row (N:=Znum) 2 0 4%Z 3%Z 1 19%Z 2%Z; Row (N:=Znum) 2 1 225%Z 3%Z 1 16619%Z 5%Z; Row (N:=Znum) 2 2 86%Z 3%Z 1 11068%Z 8%Z;
     Row (N:=Znum) 2 3 119%Z 3%Z 1 1105%Z 11%Z; Row (N:=Znum) 2 3 119%Z 3%Z 0 1105%Z 14%Z]) /\
  log (run 2%Z true) = Some (false, [RowPP (N:=Znum) 6%Z 3%Z]).
Proof.
  cbv zeta. split; [exact LAt_shaped|]. split; [apply tk_case_ok|]. split; [apply tk_case_ok|]. split; [reflexivity|].
  split; [vm_compute; reflexivity|]. split; vm_compute; reflexivity.
Qed.
