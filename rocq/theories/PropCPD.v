(** Properties C24, C25, C26 (complete runs), C37, C42, C43, C50: whole runs of the solvers *)
From Coq Require Import List ZArith QArith Qround Lia Bool Arith Ring.
From Verif Require Import Base Num Tensor Spec Spec3 Spec4 MCommon MCP MOpt MOptLR MCPD PBase PTensor PSum PMat PMttkrp PMatAlg PSolve PGrad PBuildV PDT PDTSweep PDrivers
  PALS POptEval PropOpt PropOptLR PCPD PCPD2 PNoLF PDrivers2 PropALS.
Import ListNotations.
Local Close Scope Q_scope.

Lemma sweeps_den a b c k : (Z.pos b * c = 8192)%Z -> (sweeps_after (a # b) k == Z.of_nat k * a # b)%Q.
Proof. intros H. rewrite (sweeps_after_eq (a # b) (a * c)) by (unfold Qeq; cbn [Qnum Qden]; rewrite <- H; ring). unfold Qeq, inject_Z. cbn [Qnum Qden Qmult]. lia. Qed.
Lemma sweeps_floor a b c k : (Z.pos b * c = 8192)%Z -> Qfloor (sweeps_after (a # b) k) = (Z.of_nat k * a / Z.pos b)%Z.
Proof. intros H. rewrite (sweeps_den a b c) by exact H. reflexivity. Qed.
Lemma half_floor k : Qfloor (sweeps_after (1 # 2) k) = (Z.of_nat k / 2)%Z.
Proof. rewrite (sweeps_floor 1 2 4096), Z.mul_1_r by reflexivity. reflexivity. Qed.
Lemma pos_of_nat o : 1 <= o -> Z.pos (Pos.of_nat o) = Z.of_nat o.
Proof. intros H. rewrite <- positive_nat_Z, Nat2Pos.id by lia. reflexivity. Qed.

(** ** C24: als ends.  For every kind of numbers: nothing is assumed of +, *, <, so NaN and infinities are included.
    2 (maxsweep + 1) rounds of the loop always suffice (LoopFuel: the loop is still running after wf rounds). *)
Lemma method_reaches m o ms wf : 2 <= o -> (0 <= ms)%Z -> 2 * (Z.to_nat ms + 1) <= wf -> (ms < Qfloor (sweeps_after (method_part m o) wf))%Z.
Proof.
  intros Ho Hm Hw. assert (Hp := pos_of_nat o ltac:(lia)).
  assert (Hpart : (4096 # 8192 <= method_part m o)%Q) by (destruct m; cbn [method_part]; unfold Qle; cbn [Qnum Qden]; rewrite ?Hp; lia).
  apply Z.lt_le_trans with (ms + 1)%Z; [lia|]. rewrite <- (Qfloor_Z (ms + 1)). apply Qfloor_resp_le.
  apply Qle_trans with (Z.of_nat wf * 4096 # 8192)%Q; [|apply sweeps_ge; exact Hpart]. unfold Qle, inject_Z. cbn [Qnum Qden]. lia.
Qed.
Theorem C24_als_terminates : forall (N : num) (LA : lapack N) (clock : nat -> N) (rank0 : bool) (m : cpd_method) (rounds ord size r : nat)
    (V : tensor N) (W G : list (tensor N)) (lambda tol limit : N) (maxsweep resprint : Z) (bench : bool) (x : io),
  2 <= order V -> (0 <= maxsweep)%Z -> 2 * (Z.to_nat maxsweep + 1) <= rounds ->
  cpd_run LA clock rank0 m rounds ord size r V W G lambda tol limit maxsweep resprint bench x <> Err LoopFuel.
Proof.
  intros N LA clk rank0 m wf ord size r V W G lambda tol limit ms rp bench x Ho Hm Hw.
  assert (Hr := method_reaches m (order V) ms wf Ho Hm Hw).
  assert (Hkeep : forall St (base : St -> opt_st N) rr, nolf rr -> nolf (keep base rr)).
  { intros St base rr Hrr. unfold keep. apply nolf_bind; [auto|]. intros [? ?]. apply nolf_ok. }
  change (nolf (cpd_run LA clk rank0 m wf ord size r V W G lambda tol limit ms rp bench x)).
  unfold cpd_run. destruct m; (apply nolf_bind; [first [apply nolf_dt_new|apply nolf_ms_new|apply nolf_dl_new|apply nolf_ml_new|apply nolf_opt_seqV]|intros s]);
    (apply nolf_bind; [apply nolf_cpd_init|intros _]); (apply nolf_bind; [apply nolf_lget|intros W0]); (apply nolf_bind; [apply nolf_mk_regul|intros regul]);
    apply Hkeep; cbn [method_part] in Hr.
  - apply (cpd_als_nolf clk rank0 _ _ (1 # 2)%Q); [intros; apply nolf_dt_step|intros ? ? ?; apply dt_part|exact Hr].
  - eapply cpd_als_nolf; [intros; apply nolf_ms_step|intros ? ? ?; apply ms_part|exact Hr].
  - apply (cpd_als_nolf clk rank0 _ _ (1 # 2)%Q); [intros; apply nolf_dl_step|intros ? ? ?; apply dl_part|exact Hr].
  - eapply cpd_als_nolf; [intros; apply nolf_ml_step|intros ? ? ?; apply ml_part|exact Hr].
  - apply (cpd_als_nolf clk rank0 _ _ 1%Q); [intros; apply nolf_simple_step|intros ? ? ?; apply simple_part|exact Hr].
Qed.
(** and the complete description of a run on well-formed input: which steps, which checks, what is returned and written *)
Theorem C24_als_run : forall (N : num), ring_laws N ->
  forall (LA : lapack N) (clock : nat -> N) (rank0 : bool) (V : tensor N) (size R : nat) (W G : list (tensor N)) (lambda : N) (m : cpd_method)
    (wf : nat) (tol limit : N) (maxsweep resprint : Z) (bench : bool) (x : io),
  tri_shaped (cholesky LA) (solve_tri LA) -> low_shaped (svd LA) (qr_q LA) (rnd LA) ->
  method_ok m (order V) size R -> lens V = repeat size (order V) -> factors_ok V W R -> mats_ok V G R ->
  (0 <= maxsweep)%Z -> resprint <> 0%Z -> 2 * (Z.to_nat maxsweep + 1) <= wf ->
  let q := method_part m (order V) in
  let Wf k := fst (method_state m LA lambda V R W G k) in
  let Gf k := snd (method_state m LA lambda V R W G k) in
  exists k (stopped : bool) gn rows,
    cpd_run LA clock rank0 m wf (order V) size R V W G lambda tol limit maxsweep resprint bench x
      = Ok (negb (Qeq_bool (sweeps_after q k) (inject_Z (maxsweep + 1))), method_state m LA lambda V R W G k, gn, rows) /\
    k <= 2 * (Z.to_nat maxsweep + 1) /\
    als_run clock (ck x) tol limit maxsweep resprint q Gf k stopped /\
    (stopped = true -> gn = grad_norm (Gf k)) /\
    rows = if rank0 then als_rows clock (ck x) V R tol q bench Wf Gf (checks q maxsweep resprint (k + if stopped then 1 else 0)) else [].
Proof.
  intros N RL LA clk rank0 V size R W G lambda m wf tol limit ms rp bench x Hsh Hlow Hm Hc HW HG Hms Hrp Hwf q Wf Gf.
  destruct (cpd_run_ok RL LA clk rank0 V size R W G lambda m Hsh Hlow Hm Hc HW HG wf tol limit ms rp bench x Hms Hrp Hwf) as (k & stopped & gn & rows & E & Hrun & H3 & H4).
  exists k, stopped, gn, rows. split; [exact E|]. split; [|auto].
  destruct (le_lt_dec k (2 * (Z.to_nat ms + 1))) as [|Hk]; [auto|]. exfalso. destruct Hrun as [Hi _]. destruct (Hi _ Hk) as [Hi' _].
  assert (Ho : 2 <= order V) by (clear - Hm; destruct m; cbn [method_ok] in Hm; lia).
  assert (H := method_reaches m (order V) ms (2 * (Z.to_nat ms + 1)) Ho Hms (le_n _)). unfold q in Hi'. lia.
Qed.

(** ** C25: the return value *)
(** the run is determined by the inputs *)
Lemma run_unique {N : num} late (gn : nat -> N) tol ms rp q k s k' s' :
  run_spec late gn tol ms rp q k s -> run_spec late gn tol ms rp q k' s' -> k = k' /\ s = s'.
Proof.
  intros [H1 H2] [H1' H2'].
  assert (Hk : forall k s k' (s' : bool), (forall i, (i < k)%nat -> (Qfloor (sweeps_after q i) <= ms)%Z /\ stops_at late gn tol ms rp q i = false) ->
     (if s : bool then (Qfloor (sweeps_after q k') <= ms)%Z /\ stops_at late gn tol ms rp q k' = true else (ms < Qfloor (sweeps_after q k'))%Z) -> ~ k' < k).
  { intros a b a' _ Ha Hb Hlt. destruct (Ha a' Hlt) as [Ha1 Ha2]. destruct b; [destruct Hb as [_ Hb]; congruence|lia]. }
  assert (E : k = k'). { assert (A := Hk k s' k' s' H1 H2'). assert (B := Hk k' s k s H1' H2). lia. }
  split; [exact E|]. rewrite E in H2. destruct s, s'; auto; [destruct H2; lia|destruct H2'; lia].
Qed.
(** als returns true exactly if a check stopped it, except for the multi-sweep methods: they return true as well if their sweep counter
    misses maxsweep + 1 *)
Definition multi_sweep (m : cpd_method) : bool := match m with MultiSweep | MultiSweepLR _ _ => true | _ => false end.
Theorem C25_return_value : forall (N : num), ring_laws N ->
  forall (LA : lapack N) (clock : nat -> N) (rank0 : bool) (V : tensor N) (size R : nat) (W G : list (tensor N)) (lambda : N) (m : cpd_method)
    (wf : nat) (tol limit : N) (maxsweep resprint : Z) (bench : bool) (x : io) (k : nat) (stopped : bool),
  tri_shaped (cholesky LA) (solve_tri LA) -> low_shaped (svd LA) (qr_q LA) (rnd LA) ->
  method_ok m (order V) size R -> lens V = repeat size (order V) -> factors_ok V W R -> mats_ok V G R ->
  (0 <= maxsweep)%Z -> resprint <> 0%Z -> 2 * (Z.to_nat maxsweep + 1) <= wf ->
  als_run clock (ck x) tol limit maxsweep resprint (method_part m (order V)) (fun k => snd (method_state m LA lambda V R W G k)) k stopped ->
  exists gn rows,
    cpd_run LA clock rank0 m wf (order V) size R V W G lambda tol limit maxsweep resprint bench x
      = Ok (stopped || (multi_sweep m && negb (Qeq_bool (sweeps_after (method_part m (order V)) k) (inject_Z (maxsweep + 1)))),
            method_state m LA lambda V R W G k, gn, rows).
Proof.
  intros N RL LA clk rank0 V size R W G lambda m wf tol limit ms rp bench x k stopped Hsh Hlow Hm Hc HW HG Hms Hrp Hwf Hrun.
  destruct (cpd_run_ok RL LA clk rank0 V size R W G lambda m Hsh Hlow Hm Hc HW HG wf tol limit ms rp bench x Hms Hrp Hwf) as (k' & stopped' & gn & rows & E & Hrun' & _).
  destruct (run_unique _ _ _ _ _ _ _ _ _ _ Hrun' Hrun) as [-> ->]. exists gn, rows. rewrite E. do 4 f_equal. clear - Hrun Hm Hms.
  set (o := order V) in *. assert (Ho : 2 <= o) by (destruct m; cbn [method_ok] in Hm; lia).
  assert (Hgt : forall q, Qfloor q <> (ms + 1)%Z -> Qeq_bool q (inject_Z (ms + 1)) = false).
  { intros q Hq. destruct (Qeq_bool q (inject_Z (ms + 1))) eqn:Eq; auto. apply Qeq_bool_eq in Eq. rewrite Eq, Qfloor_Z in Hq. congruence. }
  destruct Hrun as [H1 H2]. destruct stopped; [destruct H2 as [H2 _]; rewrite Hgt by lia; reflexivity|]. cbn [orb].
  assert (Hk : exists j, k = S j). { destruct k as [|j]; [exfalso|eauto]. change (sweeps_after _ 0) with 0%Q in H2. change (Qfloor 0) with 0%Z in H2. lia. }
  destruct Hk as [j ->]. destruct (H1 j ltac:(lia)) as [H3 _]. clear H1.
  assert (Hhalf : forall j, (ms < Qfloor (sweeps_after (1 # 2) (S j)))%Z -> (Qfloor (sweeps_after (1 # 2) j) <= ms)%Z ->
     negb (Qeq_bool (sweeps_after (1 # 2) (S j)) (inject_Z (ms + 1))) = false).
  { intros i A B. rewrite half_floor in A, B. replace (Qeq_bool _ _) with true; [auto|]. symmetry. apply Qeq_bool_iff. rewrite (sweeps_den 1 2 4096) by reflexivity. unfold Qeq, inject_Z. cbn [Qnum Qden].
    assert (Hs : Z.of_nat (S i) = (Z.of_nat i + 1)%Z) by lia. rewrite Hs in *. clear - A B Hms.
    assert (C := Z.div_mod (Z.of_nat i) 2 ltac:(lia)). assert (D := Z.mod_pos_bound (Z.of_nat i) 2 ltac:(lia)).
    assert (C' := Z.div_mod (Z.of_nat i + 1) 2 ltac:(lia)). assert (D' := Z.mod_pos_bound (Z.of_nat i + 1) 2 ltac:(lia)). lia. }
  destruct m; cbn [method_part multi_sweep andb] in *; auto.
  rewrite floor_1 in H2, H3. replace (Qeq_bool _ _) with true; [auto|]. symmetry. apply Qeq_bool_iff. rewrite (sweeps_after_eq 1 8192) by reflexivity. unfold Qeq, inject_Z. cbn [Qnum Qden Qmult]. lia.
Qed.
(** for the orders 4, 8 and 16 the steps of the multi-sweep methods add up without rounding; then the counter misses maxsweep + 1
    unless order - 1 divides it *)
Theorem C25_multi_sweep_exact_orders : forall (N : num) (late : nat -> bool) (gn : nat -> N) (tol : N) (o : nat) (m : cpd_method) (maxsweep resprint : Z) (k : nat),
  o = 4 \/ o = 8 \/ o = 16 -> multi_sweep m = true -> (0 <= maxsweep)%Z ->
  run_spec late gn tol maxsweep resprint (method_part m o) k false ->
  negb (Qeq_bool (sweeps_after (method_part m o) k) (inject_Z (maxsweep + 1))) = negb ((maxsweep + 1) mod (Z.of_nat o - 1) =? 0)%Z.
Proof.
  intros N late gn tol o m ms rp k Hpow Hmm Hms [H1 H2].
  assert (Hq : method_part m o = (Z.of_nat o - 1 # Pos.of_nat o)%Q) by (destruct m; try discriminate; reflexivity). rewrite Hq in *.
  assert (Ho : 2 <= o) by lia. assert (Hdiv : exists c, (Z.pos (Pos.of_nat o) * c = 8192)%Z).
  { rewrite pos_of_nat by lia. destruct Hpow as [->|[->| ->]]; [exists 2048%Z|exists 1024%Z|exists 512%Z]; reflexivity. }
  destruct Hdiv as (c0 & Hc0).
  assert (Hk : exists j, k = S j). { destruct k as [|j]; [exfalso|eauto]. change (sweeps_after _ 0) with 0%Q in H2. change (Qfloor 0) with 0%Z in H2. lia. }
  destruct Hk as [j ->]. destruct (H1 j ltac:(lia)) as [B _]. rename H2 into A. clear H1.
    f_equal. rewrite (sweeps_floor _ _ c0 _ Hc0), pos_of_nat in A by lia. rewrite (sweeps_floor _ _ c0 _ Hc0), pos_of_nat in B by lia. apply eq_true_iff_eq. rewrite Qeq_bool_iff, Z.eqb_eq, (sweeps_den _ _ c0 _ Hc0). unfold Qeq, inject_Z. cbn [Qnum Qden].
    rewrite pos_of_nat by lia. set (zo := Z.of_nat o) in *. assert (Hzo : (2 <= zo)%Z) by lia. set (i := Z.of_nat (S j)) in *.
    assert (A1 : ((ms + 1) * zo <= i * (zo - 1))%Z). { assert (C := Z.div_mod (i * (zo - 1)) zo ltac:(lia)). assert (D := Z.mod_pos_bound (i * (zo - 1)) zo ltac:(lia)). nia. }
    assert (B1 : ((i - 1) * (zo - 1) < (ms + 1) * zo)%Z). { replace (Z.of_nat j) with (i - 1)%Z in B by lia.
      assert (C := Z.div_mod ((i - 1) * (zo - 1)) zo ltac:(lia)). assert (D := Z.mod_pos_bound ((i - 1) * (zo - 1)) zo ltac:(lia)). nia. }
    split; intros H.
    - apply Z.mod_divide; [lia|]. exists (i - (ms + 1))%Z. nia.
    - apply Z.mod_divide in H as [c Hcc]; [|lia]. rewrite Hcc in *. clear - A1 B1 Hzo. 
      assert (X : (c * zo <= i)%Z) by nia. assert (Y : (i - 1 < c * zo)%Z) by nia. assert (i = c * zo)%Z by lia. nia.
Qed.
(** for the other orders rounding decides: at order 3 with maxsweep = 3, where six steps are exactly four sweeps, the counter is just
    below 4 after six steps, so a seventh step is made and the counter misses 4 *)
Theorem C25_rounding : forall (N : num) (late : nat -> bool) (gn : nat -> N) (tol : N) (resprint : Z) (k : nat),
  run_spec late gn tol 3 resprint (method_part MultiSweep 3) k false ->
  k = 7 /\ negb (Qeq_bool (sweeps_after (method_part MultiSweep 3) k) (inject_Z (3 + 1))) = true /\ ((3 + 1) mod (3 - 1) = 0)%Z.
Proof.
  intros N late gn tol rp k [H1 H2].
  assert (F : forall i, i <= 6 -> (Qfloor (sweeps_after (method_part MultiSweep 3) i) <= 3)%Z) by (intros i Hi; do 7 (destruct i as [|i]; [vm_compute; discriminate|]); lia).
  assert (Hk : k = 7).
  { destruct (le_lt_dec k 6) as [Hle|Hlt]; [specialize (F k Hle); lia|]. destruct (Nat.eq_dec k 7) as [|Hne]; [auto|exfalso].
    destruct (H1 7 ltac:(lia)) as [H7 _]. vm_compute in H7. apply H7. reflexivity. }
  subst k. split; [reflexivity|]. split; vm_compute; reflexivity.
Qed.
(** a concrete case (order 3, two steps of two thirds of a sweep): the budget of one sweep is used up, the run was not stopped
    by a check, and the multi-sweep method nevertheless returns true; the other methods return false *)
Definition cZ (n : nat) : Znum := Z.of_nat n.
Definition cW : list (tensor Znum) := lW0.
Definition cRun (m : cpd_method) (tol limit : Znum) (maxsweep : Z) := cpd_run lLA cZ true m 10 3 2 1 oV cW cW (1%Z : Znum) tol limit maxsweep 1 false (mkIo 0 (0%Z : Znum) []).
Theorem C25_case :
  tri_shaped (cholesky lLA) (solve_tri lLA) /\ low_shaped (svd lLA) (qr_q lLA) (rnd lLA) /\ method_ok MultiSweep (order oV) 2 1 /\
  lens oV = repeat 2 (order oV) /\ factors_ok oV cW 1 /\ mats_ok oV cW 1 /\
  als_run cZ 0 (0%Z : Znum) (1000%Z : Znum) 0 1 (method_part MultiSweep 3) (fun k => snd (method_state MultiSweep lLA (1%Z : Znum) oV 1 cW cW k)) 2 false /\
  match cRun MultiSweep 0%Z 1000%Z 0 with Ok (ret, _, _, rows) => ret = true /\ length rows = 2 | _ => False end /\
  match cRun TwoSubtree 0%Z 1000%Z 0 with Ok (ret, _, _, rows) => ret = false /\ length rows = 2 | _ => False end /\
  match cRun Simple 0%Z 1000%Z 1 with Ok (ret, _, _, rows) => ret = false /\ length rows = 2 | _ => False end /\
  match cRun (TwoSubtreeLR 1 false) 0%Z 1000%Z 1 with Ok (ret, _, _, rows) => ret = false /\ length rows = 4 | _ => False end /\
  match cRun (MultiSweepLR 1 false) 0%Z 1000%Z 1 with Ok (ret, _, _, rows) => ret = false /\ length rows = 3 | _ => False end /\
  match cRun TwoSubtree 1000%Z 1000%Z 0 with Ok (ret, _, _, rows) => ret = true /\ length rows = 1 | _ => False end.
Proof.
  destruct C23_case as (H1 & H2 & H3 & H4 & _). split; [exact H1|]. split; [exact H2|]. split; [cbn; lia|]. split; [reflexivity|]. split; [exact H3|]. split; [exact H4|].
  split.
  { split; [|vm_compute; reflexivity]. intros i Hi. destruct i as [|[|i]]; [| |lia]; vm_compute; split; [discriminate|reflexivity|discriminate|reflexivity]. }
  do 5 (split; [vm_compute; split; reflexivity|]). vm_compute; split; reflexivity.
Qed.

(** the run of C25_rounding: seven rows, one before each step, and true is returned; with maxsweep = 1 three steps are exactly two sweeps *)
Theorem C25_rounding_case :
  match cRun MultiSweep 0%Z 1000%Z 3 with Ok (ret, _, _, rows) => ret = true /\ length rows = 7 | _ => False end /\
  match cRun MultiSweep 0%Z 1000%Z 1 with Ok (ret, _, _, rows) => ret = false /\ length rows = 3 | _ => False end.
Proof. vm_compute. repeat split; reflexivity. Qed.
Print Assumptions C25_rounding_case.

(** ** C26: the complete runs of alsCP_DT and alsCP *)
Theorem C26_alsCP_DT_run :
  forall (N : num), ring_laws N ->
  forall (LA : lapack N), svd_shaped (svd LA) ->
  forall (clock : nat -> N) (rank0 : bool)
    (V : tensor N) (R : nat) (W G F : list (tensor N)) (tol limit : N) (maxiter : Z) (lambda : N) (resprint : Z)
    (bench : bool) (fuel : nat) (x : io),
  order V = 4 \/ 6 <= order V <= 19 -> order V < fuel ->
  factors_ok V W R -> mats_ok V F R -> mats_ok V G R -> (0 <= maxiter)%Z -> resprint <> 0%Z ->
  let solve := pinv_solve (svd LA) R in
  let Wf k := Nat.iter k (fun W => rescaled (als_sweep solve lambda V F R W)) W in
  let Gf k := match k with O => G | S k' => als_grads solve lambda V F R (Wf k') end in
  exists k (stopped : bool) st,
    alsCP_DT LA clock rank0 fuel V W G F tol limit maxiter lambda resprint bench x = Ok (stopped, st) /\
    als_run clock (ck x) tol limit maxiter resprint 1 Gf k stopped /\
    (Z.of_nat k <= maxiter + 1)%Z /\ dtW st = Wf k /\ dtG st = Gf k /\ (stopped = true -> dtpn st = grad_norm (Gf k)) /\
    rows (dtio st) = rows x ++ (if rank0 then dt_rows clock (ck x) V R tol bench Wf Gf (checks 1 maxiter resprint (k + if stopped then 1 else 0)) else []).
Proof.
  intros N RL LA Hsh clk rank0 V R W G F tol limit ms lambda rp bench fuel x Ho Hf HW HF HG Hm Hr solve Wf Gf.
  destruct (alsCP_DT_full RL LA clk rank0 V R W G F tol limit ms lambda rp bench fuel x Ho Hf Hsh HW HF HG Hm Hr) as (k & stopped & st & E & Hrun & Hrest).
  exists k, stopped, st. split; [exact E|]. split; [exact Hrun|]. split; [|exact Hrest].
  destruct (run_ret _ _ _ _ _ _ _ Hrun Hm) as [_ H]. destruct stopped; lia.
Qed.
Theorem C26_alsCP_run :
  forall (N : num), ring_laws N ->
  forall (LA : lapack N), svd_shaped (svd LA) ->
  forall (clock : nat -> N) (V : tensor N) (R s : nat) (W G F : list (tensor N)) (tol limit : N) (maxiter : Z) (x : io),
  2 <= order V <= 10 -> lens V = repeat s (order V) ->
  factors_ok V W R -> mats_ok V F R -> mats_ok V G R -> (0 <= maxiter)%Z ->
  let Wf k := Nat.iter k (fun W => let W' := als_sweep (pinv_solve (svd LA) R) n0 V F R W in
                       if neqb (bigsum F norm2) n0 then rescaled W' else W') W in
  let pn i := grad_norm (map (fun n => msub (grad_spec V (Wf i) R n) (fac F n)) (seq 0 (order V))) in
  (* the clock is read at the start and at each check *)
  let late j := nltb limit (nsub (clock (ck x + 1 + j)) (clock (ck x))) in
  exists k (stopped : bool) st,
    alsCP LA clock V W G F tol limit maxiter x = Ok (stopped, st) /\
    run_spec late pn tol maxiter 100 1 k stopped /\ (Z.of_nat k <= maxiter + 1)%Z /\ aW st = Wf k /\
    (stopped = true -> aG st = map (fun n => grad_spec V (Wf k) R n) (seq 0 (order V)) /\ apn st = pn k).
Proof.
  intros N RL LA Hsh clk V R s W G F tol limit ms x Ho Hc HW HF HG Hm Wf pn late.
  destruct (alsCP_full RL LA clk V R s W G F tol limit ms x Ho Hc Hsh HW HF HG Hm) as (k & stopped & st & E & Hrun & Hrest).
  exists k, stopped, st. split; [exact E|]. split; [exact Hrun|]. split; [|exact Hrest].
  destruct (run_ret _ _ _ _ _ _ _ Hrun Hm) as [_ H]. destruct stopped; lia.
Qed.
(** stopped means: the norm is below the tolerance or the time is up, and no earlier check found that *)
Lemma stopped_means {N : num} late (gn : nat -> N) tol ms rp q k : run_spec late gn tol ms rp q k true ->
  checked_at q ms rp k = true /\ (nltb (gn k) tol = true \/ late (length (checks q ms rp k)) = true).
Proof. intros [_ [_ H]]. unfold stops_at in H. apply andb_true_iff in H as [H1 H2]. apply orb_true_iff in H2. auto. Qed.

(** ** C42: the time that is logged and compared with the limit *)
Section C42.
Context {N : num} (RL : ring_laws N) (clock : nat -> N) (t0 : nat).
Let RT : ring_theory (@n0 N) n1 nadd nmul nsub nopp (@eq N) := RL.
Add Ring NringT : RT.
Local Open Scope num_scope.
(** the wall time between reading t0 (the start) and reading r, minus the time spent in the checks 0..j,
    each from its first to its second reading *)
Definition net_time (j r : nat) : N :=
  (clock r - clock t0) - bigsum (seq 0 (j + 1)) (fun i => clock (t0 + 4 * i + 2)%nat - clock (t0 + 4 * i + 1)%nat).
Lemma corrected_net j : corrected_start clock t0 j = clock t0 + bigsum (seq 0 j) (fun i => clock (t0 + 4 * i + 2)%nat - clock (t0 + 4 * i + 1)%nat).
Proof.
  induction j as [|j IH]; [cbn; ring|]. rewrite seq_S, (bigsum_app RL). cbn [corrected_start]. rewrite IH. unfold bigsum at 3. cbn [fold_right Nat.add]. ring.
Qed.
Lemma reported_net j : reported_time clock t0 j = net_time j (t0 + 4 * j + 3).
Proof. unfold reported_time, net_time. rewrite corrected_net. ring. Qed.
Lemma late_net limit j : out_of_time clock t0 limit j = nltb limit (net_time j (t0 + 4 * j + 4)).
Proof. unfold out_of_time, net_time. rewrite corrected_net. f_equal. ring. Qed.
End C42.
Theorem C42_als_time : forall (N : num), ring_laws N ->
  forall (LA : lapack N) (clock : nat -> N) (V : tensor N) (size R : nat) (W G : list (tensor N)) (lambda : N) (m : cpd_method)
    (wf : nat) (tol limit : N) (maxsweep resprint : Z) (x : io),
  tri_shaped (cholesky LA) (solve_tri LA) -> low_shaped (svd LA) (qr_q LA) (rnd LA) ->
  method_ok m (order V) size R -> lens V = repeat size (order V) -> factors_ok V W R -> mats_ok V G R ->
  (0 <= maxsweep)%Z -> resprint <> 0%Z -> 2 * (Z.to_nat maxsweep + 1) <= wf ->
  let gn i := grad_norm (snd (method_state m LA lambda V R W G i)) in
  exists k stopped ret st g rows,
    cpd_run LA clock true m wf (order V) size R V W G lambda tol limit maxsweep resprint false x = Ok (ret, st, g, rows) /\
    (* the comparison with the limit *)
    run_spec (fun j => nltb limit (net_time clock (ck x) j (ck x + 4 * j + 4))) gn tol maxsweep resprint (method_part m (order V)) k stopped /\
    (* the logged times *)
    forall j, j < length rows -> exists d s g' t' dv, nth_error rows j = Some (CRow d s g' t' dv (net_time clock (ck x) j (ck x + 4 * j + 3))).
Proof.
  intros N RL LA clk V size R W G lambda m wf tol limit ms rp x Hsh Hlow Hm Hc HW HG Hms Hrp Hwf gn.
  destruct (cpd_run_ok RL LA clk true V size R W G lambda m Hsh Hlow Hm Hc HW HG wf tol limit ms rp false x Hms Hrp Hwf) as (k & stopped & g & rows & E & Hrun & _ & Hrows).
  do 6 eexists. split; [exact E|]. split.
  - destruct Hrun as [H1 H2]. assert (Es : forall i, stops_at (fun j => nltb limit (net_time clk (ck x) j (ck x + 4 * j + 4))) gn tol ms rp (method_part m (order V)) i
      = stops_at (out_of_time clk (ck x) limit) (fun i => grad_norm (snd (method_state m LA lambda V R W G i))) tol ms rp (method_part m (order V)) i).
    { intros i. unfold stops_at. rewrite (late_net RL). reflexivity. }
    instantiate (1 := stopped). split; [intros i Hi; rewrite Es; apply H1; exact Hi|]. destruct stopped; [rewrite Es|]; exact H2.
  - intros j Hj. rewrite Hrows in Hj |- *. unfold als_rows in *. rewrite map_length, seq_length in Hj. rewrite nth_error_map. rewrite nth_error_nth' with (d := 0) by (rewrite seq_length; auto).
    rewrite seq_nth by auto. cbn [option_map Nat.add]. rewrite (reported_net RL). do 5 eexists. reflexivity.
Qed.
Theorem C42_alsCP_DT_time :
  forall (N : num), ring_laws N ->
  forall (LA : lapack N), svd_shaped (svd LA) ->
  forall (clock : nat -> N) (V : tensor N) (R : nat) (W G F : list (tensor N)) (tol limit : N) (maxiter : Z) (lambda : N) (resprint : Z) (fuel t0 : nat) (s0 : N),
  order V = 4 \/ 6 <= order V <= 19 -> order V < fuel ->
  factors_ok V W R -> mats_ok V F R -> mats_ok V G R -> (0 <= maxiter)%Z -> resprint <> 0%Z ->
  let solve := pinv_solve (svd LA) R in
  let Wf k := Nat.iter k (fun W => rescaled (als_sweep solve lambda V F R W)) W in
  let gn k := grad_norm (match k with O => G | S k' => als_grads solve lambda V F R (Wf k') end) in
  exists k stopped st,
    alsCP_DT LA clock true fuel V W G F tol limit maxiter lambda resprint false (mkIo t0 s0 []) = Ok (stopped, st) /\
    run_spec (fun j => nltb limit (net_time clock t0 j (t0 + 4 * j + 4))) gn tol maxiter resprint 1 k stopped /\
    forall j, j < length (rows (dtio st)) -> exists d i g p dv,
      nth_error (rows (dtio st)) j = Some (Row d i g tol p dv (net_time clock t0 j (t0 + 4 * j + 3))).
Proof.
  intros N RL LA Hsh clk V R W G F tol limit ms lambda rp fuel t0 s0 Ho Hf HW HF HG Hm Hr solve Wf gn.
  destruct (alsCP_DT_full RL LA clk true V R W G F tol limit ms lambda rp false fuel (mkIo t0 s0 []) Ho Hf Hsh HW HF HG Hm Hr) as (k & stopped & st & E & Hrun & _ & _ & _ & Hrows).
  exists k, stopped, st. split; [exact E|]. cbn [ck MCP.rows app] in *. split.
  - destruct Hrun as [H1 H2]. assert (Es : forall i, stops_at (fun j => nltb limit (net_time clk t0 j (t0 + 4 * j + 4))) gn tol ms rp 1 i
      = stops_at (out_of_time clk t0 limit) (fun i => grad_norm (match i with O => G | S k' => als_grads solve lambda V F R (Wf k') end)) tol ms rp 1 i).
    { intros i. unfold stops_at. rewrite (late_net RL). reflexivity. }
    split; [intros i Hi; rewrite Es; apply H1; exact Hi|]. destruct stopped; [rewrite Es|]; exact H2.
  - intros j Hj. rewrite Hrows in Hj |- *. unfold dt_rows in *. rewrite map_length, seq_length in Hj. rewrite nth_error_map. rewrite nth_error_nth' with (d := 0) by (rewrite seq_length; auto).
    rewrite seq_nth by auto. cbn [option_map Nat.add]. rewrite (reported_net RL). do 5 eexists. reflexivity.
Qed.

(** ** C43: two ranks run the same program on the same data, each with its own clock *)
Section C43.
Context {N : num} (RL : ring_laws N) (LA : lapack N) (V : tensor N) (size R : nat) (W G : list (tensor N)) (lambda : N) (m : cpd_method).
Hypothesis Hsh : tri_shaped (cholesky LA) (solve_tri LA).
Hypothesis Hlow : low_shaped (svd LA) (qr_q LA) (rnd LA).
Hypothesis Hm : method_ok m (order V) size R.
Hypothesis Hc : lens V = repeat size (order V).
Hypothesis HW : factors_ok V W R.
Hypothesis HG : mats_ok V G R.
Context (wf : nat) (tol limit : N) (maxsweep resprint : Z) (bench : bool).
Hypothesis Hms : (0 <= maxsweep)%Z.
Hypothesis Hrp : resprint <> 0%Z.
Hypothesis Hwf : (2 * (Z.to_nat maxsweep + 1) <= wf)%nat.
Lemma run_at clk rank0 x k stopped : als_run clk (ck x) tol limit maxsweep resprint (method_part m (order V)) (fun k => snd (method_state m LA lambda V R W G k)) k stopped ->
  exists ret gn rows, cpd_run LA clk rank0 m wf (order V) size R V W G lambda tol limit maxsweep resprint bench x = Ok (ret, method_state m LA lambda V R W G k, gn, rows) /\
    ret = negb (Qeq_bool (sweeps_after (method_part m (order V)) k) (inject_Z (maxsweep + 1))) /\ (stopped = true -> gn = grad_norm (snd (method_state m LA lambda V R W G k))).
Proof.
  intros H. destruct (cpd_run_ok RL LA clk rank0 V size R W G lambda m Hsh Hlow Hm Hc HW HG wf tol limit maxsweep resprint bench x Hms Hrp Hwf) as (k' & s' & gn & rows & E & Hrun & Hg & _).
  destruct (run_unique _ _ _ _ _ _ _ _ _ _ H Hrun) as [<- <-]. do 3 eexists. split; [exact E|]. auto.
Qed.
Lemma agree c1 c2 r1 r2 x1 x2 : (forall j, out_of_time c1 (ck x1) limit j = false) -> (forall j, out_of_time c2 (ck x2) limit j = false) ->
  exists k ret g1 g2 rows1 rows2,
    cpd_run LA c1 r1 m wf (order V) size R V W G lambda tol limit maxsweep resprint bench x1 = Ok (ret, method_state m LA lambda V R W G k, g1, rows1) /\
    cpd_run LA c2 r2 m wf (order V) size R V W G lambda tol limit maxsweep resprint bench x2 = Ok (ret, method_state m LA lambda V R W G k, g2, rows2).
Proof.
  intros H1 H2. destruct (cpd_run_ok RL LA c1 r1 V size R W G lambda m Hsh Hlow Hm Hc HW HG wf tol limit maxsweep resprint bench x1 Hms Hrp Hwf) as (k & s & g1 & rows1 & E & Hrun & _).
  destruct (run_at c2 r2 x2 k s) as (ret & g2 & rows2 & E2 & Hret & _).
  { destruct Hrun as [A B]. assert (Es : forall i, stops_at (out_of_time c2 (ck x2) limit) (fun i => grad_norm (snd (method_state m LA lambda V R W G i))) tol maxsweep resprint (method_part m (order V)) i
      = stops_at (out_of_time c1 (ck x1) limit) (fun i => grad_norm (snd (method_state m LA lambda V R W G i))) tol maxsweep resprint (method_part m (order V)) i).
    { intros i. unfold stops_at. rewrite H1, H2. reflexivity. }
    split; [intros i Hi; rewrite Es; apply A; exact Hi|]. destruct s; [rewrite Es|]; exact B. }
  subst ret. eexists k, _, g1, g2, rows1, rows2. split; [exact E|exact E2].
Qed.
Lemma state_0 : method_state m LA lambda V R W G 0 = (W, G).
Proof. destruct m; reflexivity. Qed.
Lemma first_check clk (x : io (N := N)) : nltb (grad_norm G) tol || out_of_time clk (ck x) limit 0 = true ->
  als_run clk (ck x) tol limit maxsweep resprint (method_part m (order V)) (fun k => snd (method_state m LA lambda V R W G k)) 0 true.
Proof.
  intros H. split; [intros; lia|]. change (sweeps_after _ 0) with 0%Q. change (Qfloor 0) with 0%Z. split; [exact Hms|].
  unfold stops_at. rewrite checked_at_0, state_0. exact H.
Qed.
Lemma ret_0 : negb (Qeq_bool (sweeps_after (method_part m (order V)) 0) (inject_Z (maxsweep + 1))) = true.
Proof. change (sweeps_after _ 0) with 0%Q. destruct (Qeq_bool 0 (inject_Z (maxsweep + 1))) eqn:E; auto. apply Qeq_bool_eq in E. unfold Qeq, inject_Z in E. cbn in E. lia. Qed.
Lemma diverge c1 c2 r1 r2 x1 x2 : nltb (grad_norm G) tol = false -> out_of_time c1 (ck x1) limit 0 = true -> out_of_time c2 (ck x2) limit 0 = false ->
  (exists g rows, cpd_run LA c1 r1 m wf (order V) size R V W G lambda tol limit maxsweep resprint bench x1 = Ok (true, (W, G), g, rows)) /\
  (exists k ret g rows, 1 <= k /\ cpd_run LA c2 r2 m wf (order V) size R V W G lambda tol limit maxsweep resprint bench x2 = Ok (ret, method_state m LA lambda V R W G k, g, rows)).
Proof.
  intros Hg H1 H2. split.
  - destruct (run_at c1 r1 x1 0 true) as (ret & g & rows & E & Hret & _); [apply first_check; rewrite H1, orb_true_r; auto|]. rewrite E, Hret, ret_0, state_0. eauto.
  - destruct (cpd_run_ok RL LA c2 r2 V size R W G lambda m Hsh Hlow Hm Hc HW HG wf tol limit maxsweep resprint bench x2 Hms Hrp Hwf) as (k & s & g & rows & E & Hrun & _).
    exists k. do 3 eexists. split; [|exact E]. destruct k; [exfalso|lia]. destruct Hrun as [_ Hrun]. destruct s.
    + destruct Hrun as [_ Hrun]. unfold stops_at in Hrun. rewrite checked_at_0, state_0 in Hrun. cbn [andb snd] in Hrun. rewrite Hg in Hrun. cbn [orb] in Hrun. change (length (checks _ _ _ 0)) with 0 in Hrun. congruence.
    + change (sweeps_after _ 0) with 0%Q in Hrun. change (Qfloor 0) with 0%Z in Hrun. lia.
Qed.
Lemma random_grad clk rank0 x : nltb (grad_norm G) tol = true ->
  exists rows, cpd_run LA clk rank0 m wf (order V) size R V W G lambda tol limit maxsweep resprint bench x = Ok (true, (W, G), grad_norm G, rows).
Proof.
  intros Hg. destruct (run_at clk rank0 x 0 true) as (ret & g & rows & E & Hret & H); [apply first_check; rewrite Hg; auto|]. rewrite E, Hret, ret_0, state_0 in *. rewrite (H eq_refl). cbn [snd]. eauto.
Qed.
Lemma random_grad_step clk rank0 x : nltb (grad_norm G) tol = false -> out_of_time clk (ck x) limit 0 = false ->
  exists k ret g rows, 1 <= k /\ cpd_run LA clk rank0 m wf (order V) size R V W G lambda tol limit maxsweep resprint bench x = Ok (ret, method_state m LA lambda V R W G k, g, rows).
Proof.
  intros Hg H2. destruct (cpd_run_ok RL LA clk rank0 V size R W G lambda m Hsh Hlow Hm Hc HW HG wf tol limit maxsweep resprint bench x Hms Hrp Hwf) as (k & s & g & rows & E & Hrun & _).
    exists k. do 3 eexists. split; [|exact E]. destruct k; [exfalso|lia]. destruct Hrun as [_ Hrun]. destruct s.
    + destruct Hrun as [_ Hrun]. unfold stops_at in Hrun. rewrite checked_at_0, state_0 in Hrun. cbn [andb snd] in Hrun. rewrite Hg in Hrun. cbn [orb] in Hrun. change (length (checks _ _ _ 0)) with 0 in Hrun. congruence.
    + change (sweeps_after _ 0) with 0%Q in Hrun. change (Qfloor 0) with 0%Z in Hrun. lia.
Qed.
End C43.
Theorem C43_ranks_agree_without_limit : forall (N : num), ring_laws N ->
  forall (LA : lapack N) (V : tensor N) (size R : nat) (W G : list (tensor N)) (lambda : N) (m : cpd_method)
    (wf : nat) (tol limit : N) (maxsweep resprint : Z) (bench : bool) (clock1 clock2 : nat -> N) (rank1 rank2 : bool) (x1 x2 : io),
  tri_shaped (cholesky LA) (solve_tri LA) -> low_shaped (svd LA) (qr_q LA) (rnd LA) ->
  method_ok m (order V) size R -> lens V = repeat size (order V) -> factors_ok V W R -> mats_ok V G R ->
  (0 <= maxsweep)%Z -> resprint <> 0%Z -> 2 * (Z.to_nat maxsweep + 1) <= wf ->
  (forall j, out_of_time clock1 (ck x1) limit j = false) -> (forall j, out_of_time clock2 (ck x2) limit j = false) ->
  exists k ret g1 g2 rows1 rows2,
    cpd_run LA clock1 rank1 m wf (order V) size R V W G lambda tol limit maxsweep resprint bench x1 = Ok (ret, method_state m LA lambda V R W G k, g1, rows1) /\
    cpd_run LA clock2 rank2 m wf (order V) size R V W G lambda tol limit maxsweep resprint bench x2 = Ok (ret, method_state m LA lambda V R W G k, g2, rows2).
Proof. intros. apply agree; auto. Qed.
(** with a limit: one rank leaves the loop without a step, the other one goes on (and waits for it in a collective operation) *)
Theorem C43_ranks_diverge : forall (N : num), ring_laws N ->
  forall (LA : lapack N) (V : tensor N) (size R : nat) (W G : list (tensor N)) (lambda : N) (m : cpd_method)
    (wf : nat) (tol limit : N) (maxsweep resprint : Z) (bench : bool) (clock1 clock2 : nat -> N) (rank1 rank2 : bool) (x1 x2 : io),
  tri_shaped (cholesky LA) (solve_tri LA) -> low_shaped (svd LA) (qr_q LA) (rnd LA) ->
  method_ok m (order V) size R -> lens V = repeat size (order V) -> factors_ok V W R -> mats_ok V G R ->
  (0 <= maxsweep)%Z -> resprint <> 0%Z -> 2 * (Z.to_nat maxsweep + 1) <= wf ->
  nltb (grad_norm G) tol = false -> out_of_time clock1 (ck x1) limit 0 = true -> out_of_time clock2 (ck x2) limit 0 = false ->
  (exists g rows, cpd_run LA clock1 rank1 m wf (order V) size R V W G lambda tol limit maxsweep resprint bench x1 = Ok (true, (W, G), g, rows)) /\
  (exists k ret g rows, 1 <= k /\
    cpd_run LA clock2 rank2 m wf (order V) size R V W G lambda tol limit maxsweep resprint bench x2 = Ok (ret, method_state m LA lambda V R W G k, g, rows)).
Proof. intros. apply diverge; auto. Qed.
(** a concrete case: rank 1 slept for 2000 time units before its limit test *)
Theorem C43_case :
  let slow (n : nat) : Znum := (if Nat.leb 4 n then 2000 + Z.of_nat n else Z.of_nat n)%Z in
  nltb (grad_norm cW) (0%Z : Znum) = false /\ out_of_time slow 0 (1000%Z : Znum) 0 = true /\ out_of_time cZ 0 (1000%Z : Znum) 0 = false /\
  (forall j, j < 100 -> out_of_time cZ 0 (1000%Z : Znum) j = false) /\
  match cpd_run lLA slow true TwoSubtree 10 3 2 1 oV cW cW (1%Z : Znum) (0%Z : Znum) (1000%Z : Znum) 0 1 false (mkIo 0 (0%Z : Znum) []),
        cpd_run lLA cZ false TwoSubtree 10 3 2 1 oV cW cW (1%Z : Znum) (0%Z : Znum) (1000%Z : Znum) 0 1 false (mkIo 0 (0%Z : Znum) []) with
  | Ok (r1, (W1, _), _, _), Ok (r2, (W2, _), _, _) => Some (r1, r2, map data W1, map data W2)
  | _, _ => None end = Some (true, false, map data cW, [[3; 6]; [3; 3]; [4; 0]]%Z).
Proof.
  split; [reflexivity|]. split; [reflexivity|]. split; [reflexivity|]. split.
  { intros j Hj. assert (H : forallb (fun j => negb (out_of_time cZ 0 (1000%Z : Znum) j)) (seq 0 100) = true) by (vm_compute; reflexivity).
    rewrite forallb_forall in H. specialize (H j ltac:(apply in_seq; lia)). destruct (out_of_time cZ 0 (1000%Z : Znum) j); auto. }
  vm_compute. reflexivity.
Qed.

(** ** C50: the first tolerance test looks at the random numbers that Init puts into the gradients *)
Theorem C50_first_test_is_on_random_gradients : forall (N : num), ring_laws N ->
  forall (LA : lapack N) (V : tensor N) (size R : nat) (W G : list (tensor N)) (lambda : N) (m : cpd_method)
    (wf : nat) (tol limit : N) (maxsweep resprint : Z) (bench : bool) (clock : nat -> N) (rank0 : bool) (x : io),
  tri_shaped (cholesky LA) (solve_tri LA) -> low_shaped (svd LA) (qr_q LA) (rnd LA) ->
  method_ok m (order V) size R -> lens V = repeat size (order V) -> factors_ok V W R -> mats_ok V G R ->
  (0 <= maxsweep)%Z -> resprint <> 0%Z -> 2 * (Z.to_nat maxsweep + 1) <= wf ->
  (* converged without a step if the random G is small, whatever V and W are *)
  (nltb (grad_norm G) tol = true ->
     exists rows, cpd_run LA clock rank0 m wf (order V) size R V W G lambda tol limit maxsweep resprint bench x = Ok (true, (W, G), grad_norm G, rows)) /\
  (* at least one step if it is not (and there is time), even when W is already a stationary point *)
  (nltb (grad_norm G) tol = false -> out_of_time clock (ck x) limit 0 = false ->
     exists k ret g rows, 1 <= k /\
       cpd_run LA clock rank0 m wf (order V) size R V W G lambda tol limit maxsweep resprint bench x = Ok (ret, method_state m LA lambda V R W G k, g, rows)).
Proof. intros. split; intros; [apply random_grad|apply random_grad_step]; auto. Qed.
Theorem C50_case : let G := [zt [2; 1] [0; 0]%Z; zt [2; 1] [0; 0]%Z; zt [2; 1] [0; 0]%Z] in
  mats_ok oV G 1 /\ nltb (grad_norm G) (1%Z : Znum) = true /\ nltb (grad_norm cW) (1%Z : Znum) = false /\
  grad_norm (map (fun n => grad_spec oV cW 1 n) (seq 0 3)) <> (0%Z : Znum).
Proof.
  cbv zeta. split; [|split; [reflexivity|split; [reflexivity|vm_compute; discriminate]]].
  split; [reflexivity|]. intros n Hn. destruct n as [|[|[|n]]]; [split; reflexivity|split; reflexivity|split; reflexivity|cbn in Hn; lia].
Qed.

(** ** C37: the loops divide by resprint *)
Theorem C37_als_resprint_zero : forall (N : num) (clock : nat -> N) (rank0 : bool) (St : Type) (step : St -> res (Q * St)) (base : St -> opt_st N)
    (fuel : nat) (V : tensor N) (tol limit : N) (maxsweep : Z) (bench : bool) (st : St) (gn : N) (x : io),
  order V <= 99 -> (0 <= maxsweep)%Z ->
  cpd_als clock rank0 step base (S fuel) V tol limit maxsweep 0 bench st gn x = Err UB.
Proof.
  intros N clk rank0 St step base fuel V tol limit ms bench st gn x Ho Hm. unfold cpd_als, wtime. change (cpd_seqV (order V)) with (opt_seqV (order V)). rewrite opt_seqV_ok by lia. cbn [bind cpd_loop].
  change (Qfloor 0) with 0%Z. destruct (Z.leb_spec 0 ms); [|lia]. reflexivity.
Qed.
Theorem C37_alsCP_DT_resprint_zero : forall (N : num), ring_laws N ->
  forall (LA : lapack N) (clock : nat -> N) (rank0 : bool)
    (V : tensor N) (R : nat) (W G F : list (tensor N)) (tol limit : N) (maxiter : Z) (lambda : N) (bench : bool) (fuel : nat) (x : io),
  1 <= order V <= 31 -> order V < fuel -> factors_ok V W R -> (0 <= maxiter)%Z ->
  alsCP_DT LA clock rank0 fuel V W G F tol limit maxiter lambda 0 bench x = Err UB.
Proof.
  intros N RL LA clk rank0 V R W G F tol limit ms lambda bench fuel x Ho Hf HW Hm.
  unfold alsCP_DT. rewrite (W_lget LA V R W 0) by (auto; lia). cbn [bind].
  rewrite (mk_regul_ok RL). cbn [bind]. unfold wtime. rewrite mk_seqV_ok. cbn [bind].
  destruct (PTree.tree_build (order V) fuel) as (parent & sibling & Et & Htree); [lia|lia|]. rewrite Et. cbn [bind].
  unfold rounds. destruct (Z.to_nat (ms + 1 - 0)) as [|n] eqn:En; [lia|]. cbn [for_iter]. unfold alsCP_DT_iter at 1. reflexivity.
Qed.
Print Assumptions C24_als_terminates.
Print Assumptions C24_als_run.
Print Assumptions C25_return_value.
Print Assumptions C25_multi_sweep_exact_orders.
Print Assumptions C25_rounding.
Print Assumptions C25_case.
Print Assumptions C26_alsCP_DT_run.
Print Assumptions C26_alsCP_run.
Print Assumptions C42_als_time.
Print Assumptions C42_alsCP_DT_time.
Print Assumptions C43_ranks_agree_without_limit.
Print Assumptions C43_ranks_diverge.
Print Assumptions C43_case.
Print Assumptions C50_first_test_is_on_random_gradients.
Print Assumptions C50_case.
Print Assumptions C37_als_resprint_zero.
Print Assumptions C37_alsCP_DT_resprint_zero.
