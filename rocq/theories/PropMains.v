(** C60: the dimension-tree drivers refine the algorithms of Spec14, clock and log included. *)
From Coq Require Import List ZArith QArith Lia Bool Arith.
From Verif Require Import Base Num Tensor Spec Spec2 Spec4 Spec7 Spec8 Spec9 Spec12 Spec13 Spec14 MCommon MCP MTucker PBase PTensor PDrivers PTucker PTSweep PMainRef PropALS PropTucker PropTucker2 PropDrivers PropDrivers2.
Import ListNotations.
Local Close Scope Q_scope.

(** the program returns the flag of the algorithm and leaves its factors, gradients, norm, clock readings and log rows *)
Theorem C60_alsCP_DT_is_the_algorithm :
  forall (N : num), ring_laws N ->
  forall (LA : lapack N), svd_shaped (svd LA) ->
  forall (clock : nat -> N) (rank0 : bool) (V : tensor N) (R : nat) (W G F : list (tensor N)) (tol limit lambda : N)
    (maxiter resprint : Z) (bench : bool) (fuel : nat) (x : io),
  order V = 4 \/ 6 <= order V <= 19 -> order V < fuel -> resprint <> 0%Z ->
  factors_ok V W R -> mats_ok V G R -> mats_ok V F R ->
  let '(returned, final) := dt_algorithm clock rank0 V tol limit maxiter resprint bench (pinv_solve (svd LA) R) R lambda F W G x in
  exists s, alsCP_DT LA clock rank0 fuel V W G F tol limit maxiter lambda resprint bench x = Ok (returned, s) /\
    dtW s = cpW final /\ dtG s = cpG final /\ dtpn s = cpn final /\ dtio s = cpio final.
Proof.
  intros N RL LA Hsh clk rank0 V R W G F tol limit lambda mi rp bench fuel x Ho Hf Hr HW HG HF.
  destruct (dt_algorithm_ok RL LA V clk rank0 tol limit mi rp bench fuel Hr Hf R lambda F Hsh Ho HF W G x HW HG) as (s & E & E2 & _).
  destruct (dt_algorithm _ _ _ _ _ _ _ _ _ _ _ _ _ _) as [ret fin]. cbn [fst snd] in *. exists s. split; [exact E|]. rewrite <- E2. auto.
Qed.
Print Assumptions C60_alsCP_DT_is_the_algorithm.
Theorem C60_alsTucker_DT_is_the_algorithm :
  forall (N : num), ring_laws N -> sqrt_nonneg (N:=N) ->
  forall (LA : lapack N), svd_trunc_shaped (svd LA) ->
  forall (clock : nat -> N) (rank0 : bool) (V core : tensor N) (W : list (tensor N)) (ranks : list nat) (tol limit : N)
    (maxiter resprint : Z) (bench : bool) (fuel : nat) (x : io),
  order V = 2 \/ order V = 4 \/ 6 <= order V <= 10 -> order V < fuel -> resprint <> 0%Z ->
  tucker_ok V W ranks -> ranks_ok (lens V) ranks -> lens core = ranks ->
  alsTucker_DT LA clock rank0 fuel V core W tol limit maxiter resprint bench x
  = Ok (tdt_algorithm clock rank0 V tol limit maxiter resprint bench (svd LA) ranks core W x).
Proof.
  intros N RL Hsq LA Hsvd clk rank0 V core W ranks tol limit mi rp bench fuel x Ho Hf Hr HW HR HC.
  apply (tdt_algorithm_ok RL LA V clk rank0 tol limit mi rp bench fuel Hr Hf ranks Ho HR Hsq Hsvd core W x HW HC).
Qed.
Print Assumptions C60_alsTucker_DT_is_the_algorithm.

(** ** what follows from the algorithms *)
Section Bench.
Context {N : num} (clk : nat -> N) (rank0 : bool) (V : tensor N) (tol limit : N) (resprint : Z).
Hypothesis Hr : resprint <> 0%Z.
Lemma due0 m : check_due m resprint 0 = true.
Proof. unfold check_due. rewrite Z.rem_0_l by auto. reflexivity. Qed.
Lemma due1 : check_due 1 resprint 1 = true.
Proof. unfold check_due. rewrite orb_true_r. reflexivity. Qed.
(** a benchmark repetition is a run with maxiter 1.  First check: does it stop? *)
Definition first_stops (G : list (tensor N)) (x : io (N:=N)) : bool :=
  nltb (grad_norm G) tol || nltb limit (nsub (clk (ck x + 4)) (nadd (clk (ck x)) (nsub (clk (ck x + 2)) (clk (ck x + 1))))).
Lemma dt_bench_rows solve R lambda F W G (x : io (N:=N)) :
  let '(_, s) := dt_algorithm clk rank0 V tol limit 1 resprint true solve R lambda F W G x in
  (first_stops G x = true -> rows (cpio s) = rows x /\ cpW s = W /\ cpG s = G) /\
  (first_stops G x = false -> exists t, rows (cpio s) = rows x ++ (if rank0 then [RowDT t] else [])).
Proof.
  unfold dt_algorithm. change (Z.to_nat (1 + 1)) with 2%nat. cbn [dt_loop]. rewrite due0. unfold dt_check at 1. cbn [cpio cpG cpW].
  unfold timed at 1. cbn [ck st_time rows]. cbn [Z.eqb]. unfold finished at 1. cbn [ck st_time rows].
  unfold first_stops. replace (ck x + 4)%nat with (ck x + 1 + 3)%nat by lia. replace (ck x + 2)%nat with (ck x + 1 + 1)%nat by lia.
  destruct (nltb (grad_norm G) tol); cbn [orb].
  { cbn [cpio cpW cpG rows]. split; [auto|discriminate]. }
  destruct (nltb limit _).
  { cbn [cpio cpW cpG rows]. split; [auto|discriminate]. }
  change (0 + 1)%Z with 1%Z. rewrite due1. unfold dt_check. cbn [cpio cpG cpW]. destruct (timed clk _) as [dt y] eqn:Et. assert (Hy : rows y = rows x) by (unfold timed in Et; injection Et as _ <-; reflexivity).
  cbn [Z.eqb]. destruct (finished _ _ _ _ _) as [stop y'] eqn:Ef.
  assert (Ey : rows y' = rows x ++ (if rank0 then [RowDT dt] else [])).
  { match type of Ef with finished _ ?g _ _ ?z = _ => assert (E := finished_rows clk tol limit g z) end. rewrite Ef in E. cbn [snd] in E. rewrite E. destruct rank0; cbn [written rows]; [|rewrite app_nil_r]; rewrite ?Hy; reflexivity. }
  destruct stop; cbn [cpio]; (split; [discriminate|]); intros _; exists dt; exact Ey.
Qed.
End Bench.
(** the hypotheses are met: runs that exhaust the iterations, that converge, and benchmarks, with their logs *)
Theorem C60_case :
  let run (tol : Znum) maxiter bench := dt_algorithm (fun n => Z.of_nat n : Znum) true alsV tol (1000%Z : Znum) maxiter 1%Z bench (pinv_solve (svd LAz) 2) 2
     (0%Z : Znum) (zmats alsV 2) alsW alsW (mkIo (N:=Znum) 0 0%Z []) in
  let log r := let '(b, s) := r in (b, rows (cpio s), ck (cpio s)) in
  let trun (tol : Znum) maxiter bench := tdt_algorithm (fun n => Z.of_nat n : Znum) true tkV tol (1000%Z : Znum) maxiter 1%Z bench (svd LAt) [1; 2; 1; 2]
     (zeros [1; 2; 1; 2]) tkW (mkIo (N:=Znum) 0 0%Z []) in
  let tlog r := let '(b, s) := r in (b, rows (kio s), ck (kio s)) in
  svd_shaped (svd LAz) /\ factors_ok alsV alsW 2 /\ mats_ok alsV (zmats alsV 2) 2 /\ order alsV = 4 /\
  svd_trunc_shaped (svd LAt) /\ tucker_ok tkV tkW [1; 2; 1; 2] /\ ranks_ok (lens tkV) [1; 2; 1; 2] /\ order tkV = 4 /\
  log (run 0%Z 2%Z false) = (false, [Row (N:=Znum) 2 0 3%Z 0%Z 0 3%Z 2%Z; Row (N:=Znum) 2 1 3%Z 0%Z 0 0%Z 5%Z; Row (N:=Znum) 2 2 0%Z 0%Z 0 0%Z 8%Z], 13) /\
  log (run 1%Z 5%Z false) = (true, [Row (N:=Znum) 2 0 3%Z 1%Z 0 3%Z 2%Z; Row (N:=Znum) 2 1 3%Z 1%Z 0 0%Z 5%Z; Row (N:=Znum) 2 2 0%Z 1%Z 0 0%Z 8%Z], 12) /\
  log (run 0%Z 1%Z true) = (false, [RowDT (N:=Znum) 5%Z], 9) /\
  tlog (trun 0%Z 2%Z false) = (false, [Row (N:=Znum) 2 1 4%Z 0%Z 0 19%Z 2%Z; Row (N:=Znum) 2 2 267%Z 0%Z 0 29720%Z 5%Z], 9) /\
  tlog (trun 5%Z 2%Z false) = (true, [Row (N:=Znum) 2 1 4%Z 5%Z 0 19%Z 2%Z], 4) /\
  tlog (trun 0%Z 1%Z true) = (false, [RowDT (N:=Znum) 2%Z], 5).
Proof.
  cbv zeta. destruct als_case_ok as (H1 & _ & _ & H4). split; [exact LAz_shaped|]. split; [exact H1|].
  split; [split; [reflexivity|]; intros m Hm; do 4 (destruct m as [|m]; [split; reflexivity|]); cbn in Hm; lia|]. split; [exact H4|].
  split; [exact LAt_shaped|]. split; [apply tk_case_ok|]. split; [apply tk_case_ok|]. split; [reflexivity|].
  do 5 (split; [vm_compute; reflexivity|]). vm_compute; reflexivity.
Qed.
