(** C31, C54, C55: pairwise perturbation for the Tucker decomposition, and the Tucker drivers. *)
From Coq Require Import List ZArith QArith Reals Lra Lia Bool Arith.
From Verif Require Import Base Num NumR Tensor Spec Spec4 Spec7 Spec8 Spec9 MCommon MCP MTucker PBase PTensor PSum PMttkrp PMat PGrad PBuildV PTree PDT PDrivers PTtm PTucker PHosvd
  PTDT PSign PTSweep PTBad PropTucker PPP PPPSweep PPPDriver PPPMulti PPPBad PTDrivers PTPP PTPP2 PTPPMulti PTPPDriver.
Import ListNotations.
Local Close Scope Q_scope.
Local Close Scope R_scope.

(** ** C31 *)
Theorem C31_operators_exact :
  forall (N : num), ring_laws N ->
  forall (V : tensor N) (W : list (tensor N)) (ranks : list nat) (seqV : buf Z),
  3 <= order V <= 9 -> tucker_ok V W ranks -> mk_seqV (order V) = Ok seqV ->
  exists table, build_ttmc_operators V W seqV = Ok table /\
    (forall i, i < order V -> table (map chr (outside [i] (order V))) = Some (ttmc V W (outside [i] (order V)))) /\
    (forall i j, i < j -> j < order V -> table (map chr (outside [i; j] (order V))) = Some (ttmc V W (outside [i; j] (order V)))).
Proof.
  intros N RL V W ranks seqV Ho HW Es. rewrite mk_seqV_ok in Es. injection Es as <-.
  destruct (operators_ok RL V ltac:(lia) W Ho (tucker_shapes _ _ _ HW)) as (mp & E & H1 & H2). eauto.
Qed.
Print Assumptions C31_operators_exact.
(** the input of the update of mode n: first-order expansion around the checkpoint *)
Theorem C31_expansion :
  forall (N : num), ring_laws N ->
  forall (V : tensor N) (W0 dW : list (tensor N)) (ranks : list nat) (n : nat) (seqV : buf Z) (table : smap (tensor N)),
  3 <= order V <= 9 -> n < order V -> tucker_ok V W0 ranks -> tmats_ok V ranks dW ->
  mk_seqV (order V) = Ok seqV -> build_ttmc_operators V W0 seqV = Ok table ->
  exists Y, pp_Y V table seqV seqV dW n = Ok (Y, seqV) /\ wf Y /\ lens Y = lset ranks n (nth n (lens V) 0) /\
    forall idx, inb (lens Y) idx ->
      at_ Y idx = nadd (at_ (ttmc V W0 (others n (order V))) idx)
                       (bigsum (others n (order V)) (fun m => at_ (ttmc V (setf W0 m (fac dW m)) (others n (order V))) idx)).
Proof.
  intros N RL V W0 dW ranks n seqV table Ho Hn HW HD Es Eb.
  destruct (C31_operators_exact N RL V W0 ranks seqV Ho HW Es) as (t & E & H1 & H2). rewrite Eb in E. injection E as <-.
  rewrite mk_seqV_ok in Es. injection Es as <-.
  eexists. split; [apply (PTPP2.pp_Y_ok RL V ranks ltac:(lia) W0 dW); auto; split; auto|]. split; [apply tabulate_wf|].
  split; [rewrite pp_ttmc_lens; symmetry; apply (Y_lens V ranks); auto; lia|]. intros idx Hi. rewrite pp_ttmc_lens in Hi. unfold pp_ttmc. rewrite at_tabulate by auto. auto.
Qed.
Print Assumptions C31_expansion.
(** what the expansion drops is of second order in the increments *)
Theorem C31_remainder_second_order :
  forall (N : num), ring_laws N ->
  forall (V : tensor N) (ranks : list nat) (W0 dW : list (tensor N)) (n : nat) (idx : list nat),
  2 <= order V <= 18 -> tucker_ok V W0 ranks -> tmats_ok V ranks dW -> n < order V -> inb (ttmc_lens V W0 (others n (order V))) idx ->
  exists coeffs, forall t : N,
    at_ (ttmc V (map (fun m => madd (fac W0 m) (mscal t (fac dW m))) (seq 0 (order V))) (others n (order V))) idx
    = nadd (nadd (at_ (ttmc V W0 (others n (order V))) idx)
                 (nmul t (bigsum (others n (order V)) (fun m => at_ (ttmc V (setf W0 m (fac dW m)) (others n (order V))) idx))))
           (nmul (nmul t t) (peval coeffs t)).
Proof.
  intros N RL V ranks W0 dW n idx Ho HW HD Hn Hi.
  destruct (ttmc_expansion RL V ranks Ho W0 dW n idx HW HD Hn Hi) as (cs & Hcs). exists cs. intros t.
  assert (HX : forall X, tucker_ok V X ranks -> at_ (ttmc V X (others n (order V))) idx = ttmc_at V X (others n (order V)) idx).
  { intros X HX. unfold ttmc. rewrite at_tabulate; auto. rewrite <- (Y_lens V ranks) by auto. rewrite (Y_lens V ranks Ho W0) by auto. auto. }
  pose proof HW as (HV & LW & LR & HM). pose proof HD as [LD HDm].
  rewrite !HX; auto.
  - unfold tmoved_by in Hcs. rewrite Hcs. do 3 f_equal. apply bigsum_ext. intros m Hm. apply others_in in Hm as [Hm _]. symmetry. apply HX. apply (setf_tucker V ranks); auto.
  - split; [auto|]. split; [rewrite map_length, seq_length; auto|]. split; [auto|]. intros m Hm. rewrite fac_map_seq by auto.
    destruct (HM m Hm) as [E1 _]. split; [exact E1|apply tabulate_wf].
Qed.
Print Assumptions C31_remainder_second_order.
(** it is exact when at most one of the other factors has moved since the checkpoint *)
Theorem C31_exact_when_one_factor_moved :
  forall (N : num), ring_laws N ->
  forall (V : tensor N) (W0 dW W : list (tensor N)) (ranks : list nat) (n m : nat) (seqV : buf Z) (table : smap (tensor N)),
  3 <= order V <= 9 -> n < order V -> tucker_ok V W0 ranks -> tmats_ok V ranks dW -> length W = order V ->
  mk_seqV (order V) = Ok seqV -> build_ttmc_operators V W0 seqV = Ok table ->
  (forall q, q < order V -> q <> n -> fac W q = madd (fac W0 q) (fac dW q)) ->
  (forall q, q < order V -> q <> n -> q <> m -> fac W q = fac W0 q) ->
  pp_Y V table seqV seqV dW n = Ok (ttmc V W (others n (order V)), seqV).
Proof.
  intros N RL V W0 dW W ranks n m seqV table Ho Hn HW HD HL Es Eb Hall Hone.
  destruct (C31_operators_exact N RL V W0 ranks seqV Ho HW Es) as (t & E & H1 & H2). rewrite Eb in E. injection E as <-.
  rewrite mk_seqV_ok in Es. injection Es as <-.
  rewrite (PTPP2.pp_Y_ok RL V ranks ltac:(lia) W0 dW); auto; [|split; auto].
  rewrite (pp_ttmc_exact_one RL V ranks ltac:(lia) W0 dW W n m); auto.
Qed.
Print Assumptions C31_exact_when_one_factor_moved.
(** one approximate sweep: every mode is updated from the expansion with the increments of the modes before it already renewed *)
Theorem C31_sweep :
  forall (N : num), ring_laws N -> sqrt_nonneg (N:=N) -> forall (LA : lapack N), svd_trunc_shaped (svd LA) ->
  forall (V core Y_end : tensor N) (W0 W dW : list (tensor N)) (ranks : list nat) (seqV : buf Z) (table : smap (tensor N)),
  3 <= order V <= 9 -> ranks_ok (lens V) ranks -> tucker_ok V W0 ranks -> tucker_ok V W ranks -> tmats_ok V ranks dW -> lens core = ranks ->
  mk_seqV (order V) = Ok seqV -> build_ttmc_operators V W0 seqV = Ok table -> mk_Yend V W0 = Ok Y_end ->
  let '(Wa, dWa) := tpp_upto (svd LA) V ranks W0 (order V - 1) (W, dW) in
  let '(W', dW') := tpp_sweep (svd LA) V ranks W0 (W, dW) in
  exists Y_end',
  Tucker_PP_sweep LA V core table W0 seqV (W, dW, Y_end, seqV)
  = Ok (ttm (pp_ttmc V W0 dWa (order V - 1)) (fac W' (order V - 1)) (order V - 1), (W', dW', Y_end', seqV)).
Proof.
  intros N RL Hsq LA HS V core Ye W0 W dW ranks seqV table Ho HR HW0 HW HD LC Es Eb HY.
  destruct (C31_operators_exact N RL V W0 ranks seqV Ho HW0 Es) as (t & E & H1 & H2). rewrite Eb in E. injection E as <-.
  rewrite mk_seqV_ok in Es. injection Es as <-.
  erewrite mk_Yend_ok in HY by (eauto; lia). injection HY as <-.
  assert (X := PTPP2.PP_sweep_ok RL LA V ranks ltac:(lia) HR Hsq HS core table W0 W dW (zeros (ttmc_lens V W0 (others (order V - 1) (order V)))) LC HW0 HW HD (conj H2 H1) eq_refl). unfold tpp_sweep.
  destruct (tpp_upto (svd LA) V ranks W0 (order V - 1) (W, dW)) as [Wa dWa].
  destruct (tpp_upto (svd LA) V ranks W0 (order V) (W, dW)) as [W' dW'].
  eexists. apply X.
Qed.
Print Assumptions C31_sweep.
(** the other orders: undefined behaviour while the operators are built *)
Theorem C31_other_orders_undefined :
  forall (N : num), ring_laws N ->
  forall (V : tensor N) (W : list (tensor N)) (ranks : list nat) (seqV : buf Z),
  1 <= order V <= 2 \/ 10 <= order V -> tucker_ok V W ranks -> mk_seqV (order V) = Ok seqV ->
  build_ttmc_operators V W seqV = Err UB.
Proof.
  intros N RL V W ranks seqV Ho HW Es. rewrite mk_seqV_ok in Es. injection Es as <-.
  destruct Ho as [Ho|Ho]; [apply ttmc_operators_small; lia|].
  destruct (Nat.eq_dec (order V) 10) as [E|]; [|apply ttmc_operators_big; lia].
  rewrite E. apply (ttmc_operators_10 RL V W ranks); auto.
Qed.
Print Assumptions C31_other_orders_undefined.
Definition tkD : list (tensor Znum) := [zt [2; 1] [1; 0]%Z; zt [2; 2] [0; 1; 1; 0]%Z; zt [2; 1] [1; 1]%Z; zt [2; 2] [2; 0; 0; 1]%Z].
Lemma tkD_ok : tmats_ok tkV [1; 2; 1; 2] tkD.
Proof. split; [reflexivity|]. intros m Hm; cbn in Hm; do 4 (destruct m as [|m]; [split; reflexivity|]); lia. Qed.
Theorem C31_case :
  match mk_seqV 4 with
  | Ok sq => match build_ttmc_operators tkV tkW sq with
             | Ok t => match pp_Y tkV t sq sq tkD 1 with
                       | Ok (Y, _) => data Y = [42; -10; 28; -12]%Z /\ data (ttmc tkV (map (fun m => madd (fac tkW m) (fac tkD m)) (seq 0 4)) (others 1 4)) = [72; -24; 48; -16]%Z
                       | _ => False end
             | _ => False end
  | _ => False end.
Proof. vm_compute. auto. Qed.

(** ** C54.  The runs of alsTucker_DT and alsTucker.  tk_run_spec says when they end. *)
Theorem C54_dimension_tree_run :
  forall (N : num), ring_laws N -> sqrt_nonneg (N:=N) -> forall (LA : lapack N), svd_trunc_shaped (svd LA) ->
  forall (clk : nat -> N) (rank0 : bool) (V core : tensor N) (W : list (tensor N)) (ranks : list nat) (tol limit : N) (maxiter resprint : Z) (bench : bool)
    (fuel : nat) (x : io (N:=N)),
  order V = 2 \/ order V = 4 \/ 6 <= order V <= 10 -> order V < fuel -> (0 <= maxiter)%Z -> resprint <> 0%Z ->
  tucker_ok V W ranks -> ranks_ok (lens V) ranks -> lens core = ranks ->
  let Wf k := Nat.iter k (hooi_sweep (svd LA) V ranks) W in
  let chk := tk_checked maxiter resprint in
  let change := core_change chk core (fun k => tucker_core V (Wf k)) in
  exists k (stopped : bool) st,
    alsTucker_DT LA clk rank0 fuel V core W tol limit maxiter resprint bench x = Ok (stopped, st) /\
    tk_run_spec (out_of_time clk (ck x) limit) chk change tol maxiter k stopped /\
    kW st = Wf k /\ kcore st = tucker_core V (Wf k) /\ (stopped = true -> kdn st = change k) /\
    rows (kio st) = rows x ++ (if rank0 then tk_report clk V (ck x) chk core Wf tol bench (k + if stopped then 1 else 0) else []).
Proof.
  intros N RL Hsq LA HS clk rank0 V core W ranks tol limit maxiter resprint bench fuel x Ho Hf Hm Hr HW HR LC.
  apply (alsTucker_DT_run RL LA clk rank0 V ranks); auto; lia.
Qed.
Print Assumptions C54_dimension_tree_run.
Theorem C54_plain_run :
  forall (N : num), ring_laws N -> sqrt_nonneg (N:=N) -> forall (LA : lapack N), svd_trunc_shaped (svd LA) ->
  forall (clk : nat -> N) (V core : tensor N) (W : list (tensor N)) (ranks : list nat) (tol limit : N) (maxiter : Z) (x : io (N:=N)),
  2 <= order V <= 10 -> (0 <= maxiter)%Z ->
  tucker_ok V W ranks -> ranks_ok (lens V) ranks -> lens core = ranks ->
  let Wf k := Nat.iter k (hooi_sweep (svd LA) V ranks) W in
  let chk := plain_checked maxiter in
  let change := core_change chk core (fun k => tucker_core V (Wf k)) in
  exists k (stopped : bool) st,
    alsTucker LA clk V core W tol limit maxiter x = Ok (stopped, st) /\
    tk_run_spec (plain_out_of_time clk (ck x) limit) chk change tol maxiter k stopped /\
    kW st = Wf k /\ kcore st = tucker_core V (Wf (if stopped then k else k - 1)) /\ (stopped = true -> kdn st = change k).
Proof.
  intros N RL Hsq LA HS clk V core W ranks tol limit maxiter x Ho Hm HW HR LC.
  apply (alsTucker_run RL LA clk V ranks); auto; lia.
Qed.
Print Assumptions C54_plain_run.
Theorem C54_case :
  match alsTucker_DT LAt (fun n => Z.of_nat n) true 9 tkV (zeros [1; 2; 1; 2]) tkW 0%Z 1000%Z 3%Z 1%Z false (mkIo (N:=Znum) 0 0%Z []),
        alsTucker LAt (fun n => Z.of_nat n) tkV (zeros [1; 2; 1; 2]) tkW 0%Z 1000%Z 1%Z (mkIo (N:=Znum) 0 0%Z []) with
  | Ok (r, st), Ok (r', st') => r = false /\ rows (kio st) = [Row (N:=Znum) 2 1 4%Z 0%Z 0 19%Z 2%Z; Row (N:=Znum) 2 2 267%Z 0%Z 0 29720%Z 5%Z; Row (N:=Znum) 2 3 105%Z 0%Z 0 7511%Z 8%Z] /\
      r' = false /\ data (kcore st') = [2; 4; 0; 0]%Z /\ data (tucker_core tkV (kW st')) = [-24; 180; -36; 198]%Z
  | _, _ => False end.
Proof. vm_compute. auto 10. Qed.

(** ** C55.  The pairwise-perturbation driver over the reals *)
Lemma Rsqrt_nonneg : @sqrt_nonneg Rnum.
Proof. intros y. cbn. assert (H := sqrt_pos y). destruct (Rltb_spec (sqrt y) 0); auto. lra. Qed.
Definition clock_monotone (clock : nat -> R) : Prop := forall c, (clock c <= clock (S c))%R.
Lemma Runit (t : R) : (t <= 1)%R -> forall y : Rnum, y <> n0 -> nltb (n:=Rnum) (nabs (ndiv y y)) t = false.
Proof.
  intros Ht y Hy. cbn in *. unfold Rdiv. rewrite Rinv_r by auto. rewrite Rabs_R1. destruct (Rltb_spec 1 t); auto. lra.
Qed.
Lemma Rdecay (t : R) m : (t * (9 / 10) ^ m <= 1)%R -> (@tdecay Rnum t * (9 / 10) ^ (m - 1) <= 1)%R.
Proof.
  intros H. unfold tdecay. cbn [nltb nmul nlit Rnum]. 
  assert (E1 : Q2R (5 # 1000) = (5 / 1000)%R) by (unfold Q2R; cbn; lra). assert (E2 : Q2R (9 # 10) = (9 / 10)%R) by (unfold Q2R; cbn; lra). rewrite E1, E2.
  assert (P : forall k, (0 < (9 / 10) ^ k <= 1)%R).
  { induction k; cbn; [lra|]. destruct IHk. split; [lra|]. lra. }
  destruct (Rltb_spec (5 / 1000) t) as [Ht|Ht].
  - destruct m as [|m]; cbn [Nat.sub] in *; [cbn in *; lra|]. rewrite Nat.sub_0_r. rewrite <- tech_pow_Rmult in H. lra.
  - destruct (P (m - 1)%nat) as [P1 P2]. destruct (Rlt_le_dec t 0); nra.
Qed.
Theorem C55_terminates :
  forall (LA : lapack Rnum), svd_trunc_shaped (svd LA) -> svd_nonzero (svd LA) ->
  forall (clock : nat -> R) (rank0 : bool) (V core : tensor Rnum) (W : list (tensor Rnum)) (ranks : list nat) (tol tol_init limit : R)
    (maxiter resprint : Z) (fuel n : nat) (x : io (N:=Rnum)),
  order V = 4 \/ 6 <= order V <= 9 -> order V < fuel -> (0 <= maxiter)%Z -> resprint <> 0%Z ->
  tucker_ok V W ranks -> ranks_ok (lens V) ranks -> lens core = ranks ->
  clock_monotone clock -> (forall c, ck x <= c -> (clock c - clock (ck x) <= limit)%R) ->
  (tol_init * (9 / 10) ^ n <= 1)%R ->
  exists ret p iter, forall wf, (maxiter + 1 + Z.of_nat n <= Z.of_nat wf)%Z ->
    alsTucker_PP LA clock rank0 wf fuel V core W (tol : Rnum) tol_init limit maxiter resprint false x = Ok (ret, p) /\
    (0 <= iter <= maxiter + 1)%Z /\ (ret = false <-> iter = (maxiter + 1)%Z) /\
    (ret = true -> (kdn p <= tol)%R) /\ tucker_ok V (kW p) ranks.
Proof.
  intros LA Hsh Hnz clock rank0 V core W ranks tol tol_init limit maxiter resprint fuel n x Ho Hf Hm Hr HW HR LC Hck Hlim Hn.
  set (J := fun (c : nat) (s : R) => ck x <= c /\ (clock (ck x) <= s)%R).
  set (p0 := mkTk W core core (zfacs V ranks) (nlit (10 # 1) : Rnum) (mkIo (N:=Rnum) (S (ck x)) (clock (ck x)) (rows x))).
  assert (Jm : forall c s, J c s -> J (S (S (S c))) (s + (clock (S c) - clock c))%R).
  { intros c s [H1 H2]. split; [lia|]. specialize (Hck c). lra. }
  assert (Jt : forall c s, J c s -> J (S c) s /\ nltb (n:=Rnum) limit (clock c - s)%R = false).
  { intros c s [H1 H2]. split; [split; [lia|auto]|]. cbn. specialize (Hlim c H1). destruct (Rltb_spec limit (clock c - s)); auto. lra. }
  assert (Jr : false = true -> forall c s, J c s -> J (S c) (clock c)) by discriminate.
  assert (Hp : tok V ranks J p0).
  { split; [exact HW|]. cbn [kW kcore kprev kdW kio p0]. split; auto. split; auto. split; [apply zfacs_ok|]. unfold J. cbn. split; [lia|lra]. }
  assert (T : forall wf, (Z.to_nat (maxiter + 1) + n <= wf)%nat -> exists iter' q,
      tk_while wf (fun ti => alsTucker_DT_sub LA clock rank0 fuel V (tol : Rnum) ti limit maxiter resprint)
       (fun ti => alsTucker_PP_sub LA clock rank0 V (tol : Rnum) ti limit maxiter resprint false) (tol : Rnum) maxiter false tol_init 0 p0 = Ok (iter', q) /\
      tok V ranks J q /\ (0 <= iter' <= maxiter + 1)%Z /\ ((iter' <= maxiter)%Z -> nltb (n:=Rnum) tol (kdn q) = false)).
  { intros wf Hwf. apply (twhile_terminates Rnum_ring LA V ranks ltac:(lia) HR Rsqrt_nonneg Hsh clock rank0 limit J false false Jm Jt Jr tol maxiter resprint fuel
      ltac:(lia) Hr Hf Rnum_asym (fun t m => (t * (9 / 10) ^ m <= 1)%R) eq_refl eq_refl ltac:(lia) Hnz) with (s := (Z.to_nat (maxiter + 1) + n)%nat) (n := Z.to_nat (maxiter + 1)) (m := n); auto; try lia.
    - intros t Ht. apply Runit. cbn in Ht. lra.
    - intros t m. apply Rdecay. }
  destruct (T _ (le_n _)) as (iter & q & E & Hq & Hi & Hc).
  assert (Emono : forall dt sub wf1 wf2 ti i p r, wf1 <= wf2 -> tk_while wf1 dt sub (tol : Rnum) maxiter false ti i p = Ok r -> tk_while wf2 dt sub (tol : Rnum) maxiter false ti i p = Ok r).
  { clear. induction wf1; intros wf2 ti i p r Hle E; cbn [tk_while] in E;
    (destruct wf2; cbn [tk_while]; destruct (_ && _) eqn:Ec; auto; try discriminate; try lia).
    destruct (dt ti i p) as [[i1 p1]|]; cbn [bind] in *; auto. destruct (sub ti i1 p1) as [[i2 p2]|]; cbn [bind] in *; auto. apply IHwf1; auto. lia. }
  exists (negb (Z.eqb iter (maxiter + 1))), q, iter. intros wf Hwf. split; [|split; [lia|split; [|split]]].
  - unfold alsTucker_PP, wtime. cbn [fst snd]. rewrite (tmk_dW_ok Rnum_ring V ranks) by (auto; lia). cbn [bind set_st ck st_time rows].
    fold p0. erewrite Emono; [|..|exact E]; [reflexivity|lia].
  - destruct (Z.eqb_spec iter (maxiter + 1)); cbn; split; intros; auto; try discriminate; contradiction.
  - intros Ht. destruct (Z.eqb_spec iter (maxiter + 1)); [discriminate|]. specialize (Hc ltac:(lia)). cbn in Hc.
    destruct (Rltb_spec tol (kdn q)); [discriminate|lra].
  - apply Hq.
Qed.
Print Assumptions C55_terminates.
Theorem C55_enough_rounds : forall tol_init : R, exists n, (tol_init * (9 / 10) ^ n <= 1)%R.
Proof.
  intros t. destruct (Rle_lt_dec t 0) as [H|H]; [exists 0; cbn; lra|].
  destruct (pow_lt_1_zero (9 / 10) ltac:(rewrite Rabs_pos_eq; lra) (/ t) ltac:(apply Rinv_0_lt_compat; auto)) as (n & Hn).
  exists n. specialize (Hn n (le_n n)). rewrite Rabs_pos_eq in Hn by (apply pow_le; lra).
  apply Rmult_lt_compat_l with (r := t) in Hn; auto. rewrite Rinv_r in Hn by lra. lra.
Qed.
Print Assumptions C55_enough_rounds.
(** if the limit is exceeded from the start and the first exact sweep changes the norm of the core by more than tol, the driver never returns *)
Theorem C55_never_returns :
  forall (LA : lapack Rnum), svd_trunc_shaped (svd LA) -> svd_nonzero (svd LA) ->
  forall (clock : nat -> R) (rank0 : bool) (V core : tensor Rnum) (W : list (tensor Rnum)) (ranks : list nat) (tol tol_init limit : R)
    (maxiter resprint : Z) (fuel : nat) (x : io (N:=Rnum)),
  order V = 4 \/ 6 <= order V <= 9 -> order V < fuel -> (1 <= maxiter)%Z -> resprint <> 0%Z ->
  tucker_ok V W ranks -> ranks_ok (lens V) ranks -> lens core = ranks ->
  clock_monotone clock -> (limit < clock (S (ck x)) - clock (ck x))%R -> (tol < 10)%R -> (tol_init <= 1)%R ->
  (tol < core_dist V (fst (aligned_sweep (svd LA) V ranks (W, zfacs V ranks))) core)%R ->
  forall wf, alsTucker_PP LA clock rank0 wf fuel V core W (tol : Rnum) tol_init limit maxiter resprint false x = Err LoopFuel.
Proof.
  intros LA Hsh Hnz clock rank0 V core W ranks tol tol_init limit maxiter resprint fuel x Ho Hf Hm Hr HW HR LC Hck Hlim Ht1 Ht2 Ht3 wf.
  set (J := fun (c : nat) (s : R) => (limit < clock c - s)%R).
  assert (Hlt : forall a c : R, (a < c)%R -> nltb (n:=Rnum) a c = true).
  { intros a c. cbn. destruct (Rltb_spec a c); auto. }
  assert (Jm : forall c s, J c s -> J (S (S (S c))) (s + (clock (S c) - clock c))%R).
  { unfold J. intros c s H. assert (H1 := Hck (S c)). assert (H2 := Hck (S (S c))). lra. }
  assert (Jt : forall c s, J c s -> J (S c) s /\ nltb (n:=Rnum) limit (clock c - s)%R = true).
  { unfold J. intros c s H. assert (H1 := Hck c). split; [lra|auto]. }
  assert (Jr : false = true -> forall c s, J c s -> J (S c) (clock c)) by discriminate.
  unfold alsTucker_PP, wtime. cbn [fst snd]. rewrite (tmk_dW_ok Rnum_ring V ranks) by (auto; lia). cbn [bind set_st ck st_time rows].
  rewrite (twhile_diverges_start Rnum_ring LA V ranks ltac:(lia) HR Rsqrt_nonneg Hsh clock rank0 limit J true false Jm Jt Jr tol maxiter resprint fuel
      ltac:(lia) Hr Hf eq_refl eq_refl ltac:(lia) Hnz Hm); auto.
  - split; [exact HW|]. cbn [kW kcore kprev kdW kio]. split; auto. split; auto. split; [apply zfacs_ok|]. unfold J. cbn. auto.
  - apply Runit. auto.
  - apply Hlt. cbn. unfold Q2R. cbn. lra.
Qed.
Print Assumptions C55_never_returns.
(** benchmark mode, within the limit: the approximate sweeps around the given factors, until the norm of the core changes by less than tol
    or maxiter sweeps are done; the returned flag only says which *)
Theorem C55_benchmark :
  forall (LA : lapack Rnum), svd_trunc_shaped (svd LA) ->
  forall (clock : nat -> R) (rank0 : bool) (V core : tensor Rnum) (W : list (tensor Rnum)) (ranks : list nat) (tol tol_init limit : R)
    (maxiter resprint : Z) (fuel : nat) (x : io (N:=Rnum)),
  3 <= order V <= 9 -> order V < fuel -> (0 <= maxiter)%Z -> resprint <> 0%Z ->
  tucker_ok V W ranks -> ranks_ok (lens V) ranks -> lens core = ranks -> (tol < 10)%R ->
  clock_monotone clock -> (forall c, ck x <= c -> (clock c - clock (ck x) <= limit)%R) ->
  forall wf, exists k p,
    alsTucker_PP LA clock rank0 (S wf) fuel V core W (tol : Rnum) tol_init limit maxiter resprint true x = Ok (negb (Z.eqb (Z.of_nat k) maxiter), p) /\
    (Z.of_nat k <= maxiter)%Z /\
    (kW p, kdW p) = Nat.iter k (tpp_sweep (svd LA) V ranks W) (W, zfacs V ranks) /\
    kdn p = core_dist V (kW p) (kprev p) /\ ((kdn p < tol)%R \/ Z.of_nat k = maxiter).
Proof.
  intros LA Hsh clock rank0 V core W ranks tol tol_init limit maxiter resprint fuel x Ho Hf Hm Hr HW HR LC Ht Hck Hlim wf.
  set (J := fun (c : nat) (s : R) => ck x <= c /\ (clock (ck x) <= s)%R).
  set (p0 := mkTk W core core (zfacs V ranks) (nlit (10 # 1) : Rnum) (mkIo (N:=Rnum) (S (ck x)) (clock (ck x)) (rows x))).
  assert (Jm : forall c s, J c s -> J (S (S (S c))) (s + (clock (S c) - clock c))%R).
  { intros c s [H1 H2]. split; [lia|]. specialize (Hck c). lra. }
  assert (Jt : forall c s, J c s -> J (S c) s /\ nltb (n:=Rnum) limit (clock c - s)%R = false).
  { intros c s [H1 H2]. split; [split; [lia|auto]|]. cbn. specialize (Hlim c H1). destruct (Rltb_spec limit (clock c - s)); auto. lra. }
  assert (Jr : true = true -> forall c s, J c s -> J (S c) (clock c)).
  { intros _ c s [H1 _]. split; [lia|]. clear - H1 Hck. induction H1; [lra|]. specialize (Hck m). lra. }
  assert (Hp : tok V ranks J p0).
  { split; [exact HW|]. cbn [kW kcore kprev kdW kio p0]. split; auto. split; auto. split; [apply zfacs_ok|]. unfold J. cbn. split; [lia|lra]. }
  destruct (tbench Rnum_ring LA V ranks ltac:(lia) HR Rsqrt_nonneg Hsh clock rank0 limit J false true Jm Jt Jr tol maxiter resprint fuel
      ltac:(lia) Hr Hf Rnum_asym eq_refl eq_refl wf p0 tol_init Hp Hm) as (k & q & E & Hk & (_ & Hat) & Hd & Hor).
  { cbn. destruct (Rltb_spec tol (Q2R (10 # 1))); auto. unfold Q2R in n. cbn in n. lra. }
  exists k, q. split; [|split; [auto|split; [exact Hat|split; [exact Hd|]]]].
  - unfold alsTucker_PP, wtime. cbn [fst snd]. rewrite (tmk_dW_ok Rnum_ring V ranks) by (auto; lia). cbn [bind set_st ck st_time rows].
    unfold set_st. cbn [ck rows]. fold p0. rewrite E. cbn [bind]. do 3 f_equal. destruct (Z.eqb_spec (Z.of_nat k + 1) (maxiter + 1)), (Z.eqb_spec (Z.of_nat k) maxiter); auto; lia.
  - destruct Hor as [Hor|Hor]; auto. left. cbn in Hor. destruct (Rltb_spec (kdn q) tol); [auto|discriminate].
Qed.
Print Assumptions C55_benchmark.
(** the hypotheses are met by a decomposition that returns matrices of ones, and by clocks that advance *)
Definition LAones : lapack Rnum :=
  @mkLapack Rnum (fun G k => (@tabulate Rnum [nrow G; k] (fun _ => 1%R), zeros [k], zeros [k; ncol G])) (fun A => A) (fun B L _ _ _ => B)
           (fun A => A) (fun _ ls => zeros ls).
Lemma sum_ones (l : list R) : (forall y, In y l -> y = 1%R) -> @bigsum Rnum R l (fun y => (y * y)%R) = INR (length l).
Proof.
  induction l as [|y l IH]; intros H; [reflexivity|].
  change (@bigsum Rnum R (y :: l) (fun y => (y * y)%R)) with (y * y + @bigsum Rnum R l (fun y => (y * y)%R))%R.
  rewrite IH by (intros; apply H; right; auto). rewrite (H y) by (left; auto). cbn [length]. rewrite S_INR. lra.
Qed.
Theorem C55_case :
  svd_trunc_shaped (svd LAones) /\ svd_nonzero (svd LAones) /\ (1 * (9 / 10) ^ 0 <= 1)%R /\ (100 * (9 / 10) ^ 50 <= 1)%R /\
  clock_monotone (fun c => INR (Nat.min c 100)) /\ (forall c, 0 <= c -> (INR (Nat.min c 100) - INR (Nat.min 0 100) <= 1000)%R) /\
  clock_monotone INR /\ (0 < INR 1 - INR 0)%R.
Proof.
  assert (E0 : INR 0 = 0%R) by reflexivity. assert (E1 : INR 1 = 1%R) by reflexivity.
  split; [|split; [|split; [|split; [|split; [|split; [|split]]]]]].
  - intros G n k [HG _] Hk. cbn. split; [|split; [reflexivity|apply tabulate_wf]].
    split; [|apply tabulate_wf]. cbn. unfold nrow. rewrite HG. reflexivity.
  - intros G n k [HG _] Hk. unfold lsv, LAones. cbn [svd]. unfold norm2. cbn [nsqrt Rnum tabulate data]. unfold nrow. rewrite HG. cbn [nth].
    change (sqrt (@bigsum Rnum R (map (fun _ => 1%R) (all_idx [n; k])) (fun y => (y * y)%R)) <> 0%R).
    rewrite sum_ones by (intros y Hy; apply in_map_iff in Hy as (? & <- & _); auto). rewrite map_length, all_idx_length.
    assert (Hp : (0 < INR (size [n; k]))%R) by (apply lt_0_INR; cbn; nia). apply Rgt_not_eq. apply sqrt_lt_R0. auto.
  - cbn. lra.
  - assert (H1 : ((9 / 10) ^ 10 <= 35 / 100)%R) by (cbn; lra).
    replace ((9 / 10) ^ 50)%R with (((9 / 10) ^ 10) ^ 5)%R by (rewrite <- pow_mult; f_equal).
    assert (P : (0 <= (9 / 10) ^ 10)%R) by (apply pow_le; lra).
    assert (H2 : ((((9 / 10) ^ 10) ^ 5) <= (35 / 100) ^ 5)%R) by (apply pow_incr; auto).
    assert (E35 : ((35 / 100) ^ 5 <= 1 / 100)%R) by (cbn; lra). set (z := (((9 / 10) ^ 10) ^ 5)%R) in *. clearbody z. lra.
  - intros c. apply le_INR. lia.
  - intros c _. rewrite Nat.min_0_l, E0. assert (H := le_INR (Nat.min c 100) 100 ltac:(lia)). rewrite (INR_IZR_INZ 100) in H. cbn in H. lra.
  - intros c. rewrite S_INR. lra.
  - lra.
Qed.
(** the same program on the integer problem: with an ample limit it returns; with limit 0 it is still running after 50 rounds *)
Theorem C55_run :
  let run wf limit bench := alsTucker_PP LAt (fun n => Z.of_nat n) true wf 5 tkV (zeros [1; 2; 1; 2]) tkW (3%Z : Znum) (1%Z : Znum) (limit : Znum) 5%Z 1%Z bench
                       (mkIo (N:=Znum) 0 0%Z []) in
  match run 6 1000%Z false, run 50 0%Z false, run 3 1000%Z true with
  | Ok (r, p), Err LoopFuel, Ok (r', p') => r = false /\ kdn p = 7%Z /\ r' = true /\ kdn p' = 2%Z
  | _, _, _ => False end.
Proof. vm_compute. repeat split; reflexivity. Qed.
