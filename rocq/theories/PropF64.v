(** Property C75: the rounding of the sweep counter of CPD::als *)
From Coq Require Import List ZArith QArith Qround Qreals Reals Bool Arith Lia Lra.
From Flocq Require Import Core.
From Verif Require Import Base Num Tensor Spec F64 Spec3 Spec4 MCommon MCP MOpt MOptLR MCPD PF64 PropOpt PropOptLR PCPD PCPD2 PropCPD.
Import ListNotations.
Local Close Scope Q_scope.
Local Open Scope R_scope.

(** ** The rounding of the model is round-to-nearest-even to binary64 (53 bits, exponents from -1074), as defined in Flocq *)
Theorem C75_rounding : forall q : Q,
  bpow radix2 (-1022) <= Q2R q < bpow radix2 40 -> Q2R (rnd64 q) = round radix2 (FLT_exp (-1074) 53) ZnearestE (Q2R q).
Proof. exact rnd64_round. Qed.

(** ** The error of the counter after k steps *)
Lemma sweeps_pos q k : (1 # 2 <= q)%Q -> (q <= 1)%Q -> INR k / 2 <= Q2R (sweeps_after q k) <= INR k.
Proof.
  intros H1 H2. split.
  - assert (A := sweeps_ge q 4096 k). specialize (A ltac:(unfold Qle in *; cbn in *; lia)). apply Qle_Rle in A. rewrite Q2R_div, mult_IZR, <- INR_IZR_INZ in A. lra.
  - assert (A := sweeps_le_mul q 8192 k). specialize (A ltac:(unfold Qle in *; cbn in *; lia)). apply Qle_Rle in A. rewrite Q2R_div, mult_IZR, <- INR_IZR_INZ in A. lra.
Qed.
Lemma INR_small k : (Z.of_nat k <= 2 ^ 22)%Z -> INR k <= bpow radix2 22.
Proof. intros H. rewrite INR_IZR_INZ, <- pow_bpow by lia. apply IZR_le. exact H. Qed.
Lemma sweeps_error q k : (1 # 2 <= q)%Q -> (q <= 1)%Q -> (Z.of_nat k <= 2 ^ 22)%Z ->
  Rabs (Q2R (sweeps_after q k) - INR k * Q2R q) <= INR k * bpow radix2 (-30).
Proof.
  intros H1 H2. assert (Q1 := Qle_Rle _ _ H1). assert (Q2 := Qle_Rle _ _ H2). rewrite Q2R_div in Q1. rewrite RMicromega.Q2R_1 in Q2.
  assert (B1022 : bpow radix2 (-1022) <= 1 / 2) by (replace (1/2) with (bpow radix2 (-1)) by (cbn; lra); apply bpow_le; lia).
  assert (B22 : bpow radix2 22 < bpow radix2 40) by (apply bpow_lt; lia).
  assert (B53 : 0 < bpow radix2 (-53)) by apply bpow_gt_0.
  assert (B1 : 1 < bpow radix2 22) by (change 1 with (bpow radix2 0); apply bpow_lt; lia).
  assert (E1 : bpow radix2 (-53) * bpow radix2 22 = bpow radix2 (-31)) by (rewrite <- bpow_plus; reflexivity).
  assert (E2 : bpow radix2 (-30) = 2 * bpow radix2 (-31)) by (change 2 with (bpow radix2 1); rewrite <- bpow_plus; reflexivity).
  assert (E3 : bpow radix2 (-53) <= bpow radix2 (-31)) by (apply bpow_le; lia).
  assert (Hq : Rabs (Q2R (rnd64 q) - Q2R q) <= bpow radix2 (-53)).
  { eapply Rle_trans; [apply rnd64_error; lra|]. rewrite <- (Rmult_1_r (bpow radix2 (-53))) at 2. apply Rmult_le_compat_l; lra. }
  assert (Hqr : (1 # 2 <= rnd64 q)%Q /\ (rnd64 q <= 1)%Q).
  { assert (A := rnd64_ge q 4096 ltac:(unfold Qle in *; cbn in *; lia)). assert (B := rnd64_le q 8192 ltac:(unfold Qle in *; cbn in *; lia)).
    clear - A B. set (x := rnd64 q) in *. unfold Qle in *. cbn [Qnum Qden] in *. lia. }
  destruct Hqr as [Hq1 Hq2]. apply Qle_Rle in Hq1, Hq2. rewrite Q2R_div in Hq1. rewrite RMicromega.Q2R_1 in Hq2.
  induction k as [|k IH]; intros Hk.
  - cbn [INR]. change (sweeps_after q 0) with 0%Q. rewrite RMicromega.Q2R_0. rewrite !Rmult_0_l, Rminus_0_r, Rabs_R0. lra.
  - specialize (IH ltac:(lia)). assert (Hb := sweeps_pos q k H1 H2). rewrite sweeps_S. assert (HS := INR_small (S k) Hk). rewrite S_INR in *.
    assert (P0 := pos_INR k). set (s := sweeps_after q k) in *.
    assert (Hsum : Q2R (s + rnd64 q) = Q2R s + Q2R (rnd64 q)) by apply Q2R_plus.
    assert (A := rnd64_error (s + rnd64 q)%Q). rewrite Hsum in A. specialize (A ltac:(lra)).
    assert (A' : bpow radix2 (-53) * (Q2R s + Q2R (rnd64 q)) <= bpow radix2 (-31)) by (rewrite <- E1; apply Rmult_le_compat_l; lra).
    set (s' := Q2R (rnd64 (s + rnd64 q))) in *. revert A A' IH Hq. rewrite E2. unfold Rabs. 
    generalize (bpow radix2 (-31)), (bpow radix2 (-53)), (Q2R s), (Q2R (rnd64 q)), (Q2R q), (INR k), s', E3. clear. intros b31 b53 s qr q k s' E3.
    repeat destruct Rcase_abs; intros; lra.
Qed.

(** ** Rounding costs at most one step *)
Lemma floor_le_iff q (z : Z) : (Qfloor q <= z)%Z -> Q2R q < IZR z + 1.
Proof.
  intros H. assert (A := Qlt_floor q). apply Qlt_Rlt in A. replace (IZR z + 1) with (IZR (z + 1)) by apply plus_IZR.
  eapply Rlt_le_trans; [exact A|]. unfold inject_Z. rewrite Q2R_div. unfold Rdiv. rewrite Rinv_1, Rmult_1_r. apply IZR_le. lia.
Qed.
Lemma floor_gt_iff q (z : Z) : (z < Qfloor q)%Z -> IZR z + 1 <= Q2R q.
Proof.
  intros H. assert (A := Qfloor_le q). apply Qle_Rle in A. replace (IZR z + 1) with (IZR (z + 1)) by apply plus_IZR.
  eapply Rle_trans; [|exact A]. unfold inject_Z. rewrite Q2R_div. unfold Rdiv. rewrite Rinv_1, Rmult_1_r. apply IZR_le. lia.
Qed.
Section Count.
Context (o : nat) (Ho : (2 <= o <= 100)%nat).
Let q : Q := (Z.of_nat o - 1 # Pos.of_nat o)%Q.
Lemma q_range : (1 # 2 <= q)%Q /\ (q <= 1)%Q.
Proof. unfold q, Qle. cbn [Qnum Qden]. rewrite pos_of_nat by lia. lia. Qed.
Lemma q_real : Q2R q * INR o = INR o - 1.
Proof. unfold q. rewrite Q2R_div, pos_of_nat by lia. rewrite minus_IZR, <- INR_IZR_INZ. field. apply not_0_INR. lia. Qed.
(** the counter times the order, against the exact integers *)
Lemma counter_close k : (Z.of_nat k <= 2 ^ 22)%Z -> Rabs (Q2R (sweeps_after q k) * INR o - INR k * (INR o - 1)) < 1.
Proof.
  intros Hk. destruct q_range as [Q1 Q2]. assert (A := sweeps_error q k Q1 Q2 Hk). rewrite <- q_real.
  replace (Q2R (sweeps_after q k) * INR o - INR k * (Q2R q * INR o)) with ((Q2R (sweeps_after q k) - INR k * Q2R q) * INR o) by ring.
  assert (O : 0 <= INR o <= 100). { split; [apply pos_INR|]. replace 100 with (INR 100) by (cbn; lra). apply le_INR. lia. }
  rewrite Rabs_mult, (Rabs_pos_eq (INR o)) by lra. assert (B := INR_small k Hk). assert (P := bpow_gt_0 radix2 (-30)).
  apply Rle_lt_trans with (bpow radix2 22 * bpow radix2 (-30) * 100).
  - apply Rmult_le_compat; [apply Rabs_pos|lra| |lra]. eapply Rle_trans; [exact A|]. apply Rmult_le_compat_r; lra.
  - rewrite <- bpow_plus. cbn. lra.
Qed.
Lemma steps_count (N : num) (late : nat -> bool) (gn : nat -> N) (tol : N) (ms rp : Z) k : (0 <= ms <= 1000000)%Z -> run_spec late gn tol ms rp q k false ->
  ((ms + 1) * Z.of_nat o <= Z.of_nat k * (Z.of_nat o - 1))%Z /\ ((Z.of_nat k - 1) * (Z.of_nat o - 1) <= (ms + 1) * Z.of_nat o)%Z /\
  ((ms + 1) * Z.of_nat o < Z.of_nat k * (Z.of_nat o - 1) -> (Z.of_nat k - 1) * (Z.of_nat o - 1) < (ms + 1) * Z.of_nat o ->
    Qeq_bool (sweeps_after q k) (inject_Z (ms + 1)) = false)%Z.
Proof.
  intros Hms [H1 H2]. destruct q_range as [Q1 Q2].
  assert (Hk : exists j, k = S j). { destruct k as [|j]; [exfalso|eauto]. change (sweeps_after _ 0) with 0%Q in H2. change (Qfloor 0) with 0%Z in H2. lia. }
  destruct Hk as [j ->]. destruct (H1 j ltac:(lia)) as [B _]. clear H1. apply floor_gt_iff in H2. apply floor_le_iff in B.
  assert (Hj : (Z.of_nat j <= 2000002)%Z).
  { assert (C := sweeps_pos q j Q1 Q2). apply le_IZR. rewrite <- INR_IZR_INZ. assert (IZR ms <= 1000000) by (apply (IZR_le ms 1000000); lia). lra. }
  assert (O : 0 < INR o) by (apply lt_0_INR; lia).
  assert (C1 := counter_close (S j) ltac:(lia)). assert (C2 := counter_close j ltac:(lia)). apply Rabs_def2 in C1, C2. rewrite S_INR in C1.
  assert (X1 : (IZR ms + 1) * INR o <= Q2R (sweeps_after q (S j)) * INR o) by (apply Rmult_le_compat_r; lra).
  assert (X2 : Q2R (sweeps_after q j) * INR o < (IZR ms + 1) * INR o) by (apply Rmult_lt_compat_r; lra).
  assert (Y1 : ((ms + 1) * Z.of_nat o - 1 < Z.of_nat (S j) * (Z.of_nat o - 1))%Z).
  { apply lt_IZR. rewrite !minus_IZR, !mult_IZR, minus_IZR, plus_IZR, <- !INR_IZR_INZ, S_INR. lra. }
  assert (Y2 : (Z.of_nat j * (Z.of_nat o - 1) < (ms + 1) * Z.of_nat o + 1)%Z).
  { apply lt_IZR. rewrite plus_IZR, !mult_IZR, minus_IZR, plus_IZR, <- !INR_IZR_INZ. lra. }
  split; [lia|]. split; [lia|]. intros Y3 _. destruct (Qeq_bool _ _) eqn:E; [exfalso|auto]. apply Qeq_bool_eq in E. apply Qeq_eqR in E.
  unfold inject_Z in E. rewrite Q2R_div in E. unfold Rdiv in E. rewrite Rinv_1, Rmult_1_r, plus_IZR in E.
  assert (Y4 : ((ms + 1) * Z.of_nat o + 1 <= Z.of_nat (S j) * (Z.of_nat o - 1))%Z) by lia.
  apply IZR_le in Y4. rewrite plus_IZR, !mult_IZR, minus_IZR, plus_IZR, <- !INR_IZR_INZ, S_INR in Y4. rewrite E in C1. lra.
Qed.
End Count.
(** [k] steps exhaust a budget of maxsweep sweeps; [k'] is the number of steps of (order-1)/order that add up to maxsweep+1 or more.
    The run makes k' steps, or k'+1, and the latter only if order-1 divides maxsweep+1. *)
Theorem C75_steps : forall (N : num) (late : nat -> bool) (gn : nat -> N) (tol : N) (o : nat) (m : cpd_method) (maxsweep resprint : Z) (k k' : nat),
  (2 <= o <= 100)%nat -> multi_sweep m = true -> (0 <= maxsweep <= 1000000)%Z ->
  run_spec late gn tol maxsweep resprint (method_part m o) k false ->
  ((Z.of_nat k' - 1) * (Z.of_nat o - 1) < (maxsweep + 1) * Z.of_nat o <= Z.of_nat k' * (Z.of_nat o - 1))%Z ->
  k = k' \/ (k = S k' /\ (Z.of_nat o - 1 | maxsweep + 1)%Z).
Proof.
  intros N late gn tol o m ms rp k k' Ho Hm Hms Hrun Hk'.
  assert (Hq : method_part m o = (Z.of_nat o - 1 # Pos.of_nat o)%Q) by (destruct m; try discriminate; reflexivity). rewrite Hq in Hrun.
  destruct (steps_count o Ho N late gn tol ms rp k Hms Hrun) as (A & B & _). clear Hrun Hq.
  assert (Z.of_nat k' <= Z.of_nat k)%Z by nia. assert (Z.of_nat k - 1 <= Z.of_nat k')%Z by nia.
  destruct (Nat.eq_dec k k') as [|Hne]; [left; auto|right]. assert (Hk : (Z.of_nat k = Z.of_nat k' + 1)%Z) by lia. split; [lia|].
  assert (E : (Z.of_nat k' * (Z.of_nat o - 1) = (ms + 1) * Z.of_nat o)%Z) by nia. exists (Z.of_nat k' - (ms + 1))%Z. lia.
Qed.
(** if order-1 does not divide maxsweep+1 the multi-sweep methods return true whatever happens: the return value says nothing *)
Theorem C75_return_value_is_constant : forall (N : num), ring_laws N ->
  forall (LA : lapack N) (clock : nat -> N) (rank0 : bool) (V : tensor N) (size R : nat) (W G : list (tensor N)) (lambda : N) (m : cpd_method)
    (wf : nat) (tol limit : N) (maxsweep resprint : Z) (bench : bool) (x : io),
  tri_shaped (cholesky LA) (solve_tri LA) -> low_shaped (svd LA) (qr_q LA) (rnd LA) ->
  method_ok m (order V) size R -> lens V = repeat size (order V) -> factors_ok V W R -> mats_ok V G R ->
  (0 <= maxsweep <= 1000000)%Z -> resprint <> 0%Z -> (2 * (Z.to_nat maxsweep + 1) <= wf)%nat -> (order V <= 100)%nat ->
  multi_sweep m = true -> ~ (Z.of_nat (order V) - 1 | maxsweep + 1)%Z ->
  exists st gn rows, cpd_run LA clock rank0 m wf (order V) size R V W G lambda tol limit maxsweep resprint bench x = Ok (true, st, gn, rows).
Proof.
  intros N RL LA clk rank0 V size R W G lambda m wf tol limit ms rp bench x Hsh Hlow Hm Hc HW HG Hms Hrp Hwf Ho Hmm Hdiv.
  destruct (cpd_run_ok RL LA clk rank0 V size R W G lambda m Hsh Hlow Hm Hc HW HG wf tol limit ms rp bench x ltac:(lia) Hrp Hwf) as (k & stopped & gn0 & rows0 & E0 & Hrun & _).
  destruct (C25_return_value N RL LA clk rank0 V size R W G lambda m wf tol limit ms rp bench x k stopped Hsh Hlow Hm Hc HW HG ltac:(lia) Hrp Hwf Hrun) as (gn & rows & E).
  clear E0 gn0 rows0. rewrite E. clear E. eexists _, _, _. do 3 f_equal. rewrite Hmm. destruct stopped; [reflexivity|]. cbn [orb andb].
  set (o := order V) in *. assert (Ho2 : (2 <= o <= 100)%nat) by (destruct m; cbn [method_ok] in Hm; lia).
  assert (Hq : method_part m o = (Z.of_nat o - 1 # Pos.of_nat o)%Q) by (destruct m; try discriminate; reflexivity). rewrite Hq in *.
  destruct (steps_count o Ho2 N _ _ _ _ _ _ Hms Hrun) as (A & B & C).
  rewrite C; [reflexivity| |]; apply Z.le_neq; (split; [assumption|intros E; apply Hdiv]).
  - exists (Z.of_nat k - (ms + 1))%Z. lia.
  - exists (Z.of_nat k - 1 - (ms + 1))%Z. lia.
Qed.
(** cases: one tenth is the double with the integer 0x1999999999999a; the ties 2^53+1 and 2^53+3, scaled by 2^-53; order 3: maxsweep = 3 has
    the extra step, maxsweep = 2 has not and returns true after five steps without having been stopped *)
Theorem C75_case :
  (rnd64 (1 # 10) == 0x1999999999999a # 2 ^ 56)%Q /\ (rnd64 (2 ^ 53 + 1 # 2 ^ 53) == 1)%Q /\ (rnd64 (2 ^ 53 + 3 # 2 ^ 53) == 2 ^ 53 + 4 # 2 ^ 53)%Q /\
  bpow radix2 (-1022) <= Q2R (1 # 10) < bpow radix2 40 /\
  run_spec (fun _ => false) (fun _ => 1%Z : Znum) (0%Z : Znum) 3 1 (method_part MultiSweep 3) 7 false /\
  run_spec (fun _ => false) (fun _ => 1%Z : Znum) (0%Z : Znum) 2 1 (method_part MultiSweep 3) 5 false /\
  ((6 - 1) * (3 - 1) < (3 + 1) * 3 <= 6 * (3 - 1) /\ (5 - 1) * (3 - 1) < (2 + 1) * 3 <= 5 * (3 - 1) /\ ~ (3 - 1 | 2 + 1))%Z /\
  method_ok MultiSweep (order oV) 2 1 /\ factors_ok oV cW 1 /\ mats_ok oV cW 1 /\
  match cRun MultiSweep 0%Z 1000%Z 2 with Ok (ret, _, _, rows) => ret = true /\ length rows = 5%nat | _ => False end.
Proof.
  split; [vm_compute; reflexivity|]. split; [vm_compute; reflexivity|]. split; [vm_compute; reflexivity|].
  split. { rewrite Q2R_div. split; [apply Rle_trans with (bpow radix2 (-4)); [apply bpow_le; lia|cbn; lra]|apply Rlt_trans with (bpow radix2 1); [cbn; lra|apply bpow_lt; lia]]. }
  split. { split; [|vm_compute; reflexivity]. intros i Hi. do 7 (destruct i as [|i]; [split; vm_compute; [discriminate|reflexivity]|]). lia. }
  split. { split; [|vm_compute; reflexivity]. intros i Hi. do 5 (destruct i as [|i]; [split; vm_compute; [discriminate|reflexivity]|]). lia. }
  split. { split; [lia|]. split; [lia|]. intros [c Hc]. lia. }
  destruct C25_case as (_ & _ & A & _ & B & C & _). split; [exact A|]. split; [exact B|]. split; [exact C|]. vm_compute. split; reflexivity.
Qed.
Print Assumptions C75_rounding.
Print Assumptions C75_steps.
Print Assumptions C75_return_value_is_constant.
Print Assumptions C75_case.
