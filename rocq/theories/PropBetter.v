(** C81: over the reals and with lambda > 0, the regularised objective in the two phases of the pairwise-perturbation CP driver, and the
    dimension-tree driver without conditions on the factors it meets *)
From Coq Require Import String Ascii List ZArith QArith Lia Bool Arith Reals Lra.
From Verif Require Import Base Num NumR Tensor Spec Spec2 Spec3 Spec4 Spec7 Spec10 Spec11 Spec12 Spec14 Spec18 Spec19 Spec20 Spec22 Spec25 MCommon MCP MRun MMains PBase PTensor PSum PMttkrp PMat PMatAlg PResid PGrad PRank PNormalize PALS
  PMono PMono2 PPPDriver PCPD PDrivers2 PTuckMono PConv PConv2 PConv3 PConv4 PConv5 PErr PErr2 PErr3 PPP PPPSweep PApprox PApprox2 PApprox3 PDriverRef PropCPD PropTucker3 PropConv PropConv3 PropMono7 PropErr PropErr2 PropErr3 PBetter PBetter2.
Import ListNotations.
Local Close Scope Q_scope.
Local Open Scope R_scope.

(** ** factors that fit better than the zero tensor: exact sweeps keep them so, hence no factor ever becomes zero and every system is solvable *)
Theorem C81_never_zero :
  forall (LA : lapack Rnum), svd_shaped (svd LA) ->
  forall (V : tensor Rnum) (F W : list (tensor Rnum)) (rk : nat) (lambda : R),
  svd_works (svd LA) rk -> 0 < lambda -> zero_mats V F rk -> factors_ok V W rk -> (1 <= order V)%nat -> better_than_zero lambda V W rk ->
  factors_stay_nonzero (svd LA) lambda V F rk W /\ svd_valid_along (svd LA) lambda V F rk W /\
  forall k, objective (lambda : Rnum) V (als_factors (svd LA) lambda V F rk W k) rk <= objective (lambda : Rnum) V W rk.
Proof. intros LA Hsh V F W rk lambda Hsv Hl HF HW H1 Hb. apply (better_along LA V rk lambda Hsh Hsv Hl F W); auto. Qed.
Print Assumptions C81_never_zero.

(** convergence of alsCP_DT (C70) with conditions on its input only *)
Theorem C81_alsCP_DT_converges :
  forall (LA : lapack Rnum), svd_shaped (svd LA) ->
  forall (clock : nat -> R) (rank0 bench : bool) (V : tensor Rnum) (rk : nat) (W G F : list (tensor Rnum)) (tol limit lambda : R) (maxiter resprint : Z)
    (fuel : nat) (x : io (N:=Rnum)),
  (order V = 4 \/ 6 <= order V <= 19)%nat -> (order V < fuel)%nat ->
  factors_ok V W rk -> mats_ok V F rk -> mats_ok V G rk -> zero_mats V F rk -> (1 <= maxiter)%Z -> (1 <= resprint)%Z ->
  0 < lambda -> svd_works (svd LA) rk -> better_than_zero lambda V W rk ->
  (forall j, out_of_time (N:=Rnum) clock (ck x) limit j = false) ->
  0 < tol ->
  (let f0 := objective (lambda : Rnum) V W rk in
   trace_bound lambda f0 rk (order V) * f0 < IZR (maxiter / resprint) * (tol * tol)) ->
  exists st, alsCP_DT LA clock rank0 fuel V W G F (tol : Rnum) limit maxiter (lambda : Rnum) resprint bench x = Ok (true, st) /\
    dtpn st = grad_norm (dtG st) /\ dtpn st < tol /\
    objective (lambda : Rnum) V (dtW st) rk <= objective (lambda : Rnum) V W rk.
Proof.
  intros LA Hsh clock rank0 bench V rk W G F tol limit lambda maxiter resprint fuel x Ho Hf HW HF HG HZ Hm Hr Hl Hsv Hb Hlate Ht Hbig.
  destruct (C81_never_zero LA Hsh V F W rk lambda Hsv Hl HZ HW ltac:(lia) Hb) as (N1 & N2 & _).
  apply (C70_converges LA Hsh clock rank0 bench V rk W G F tol limit lambda maxiter resprint fuel x); auto.
Qed.
Print Assumptions C81_alsCP_DT_converges.

(** the program test_ALS with -model CP -pp 0 -lambda > 0 *)
Theorem C81_test_ALS_converges :
  forall (LA : lapack Rnum), svd_shaped (svd LA) ->
  forall (atof : string -> Rnum) (clock : nat -> R) (rank0 same : bool) (env : environment (N:=Rnum)) (trunc : Rnum -> nat) (fuel base tf rounds : nat) (argv : list string)
    (x : io (N:=Rnum)) (V : tensor Rnum),
  let st := test_ALS_settings atof argv in
  let rk := Z.to_nat (s_rank st) in
  let lambda := s_lambda st in
  let tol := s_tol st * norm2 V in
  (forall k ls, lens (rng env k ls) = ls /\ Tensor.wf (rng env k ls)) ->
  String.get 0 (s_model st) = Some "C"%char -> s_pp st = 0%Z ->
  run_tensor env fuel st = Ok V -> Tensor.wf V -> (order V = 4 \/ 6 <= order V <= 19)%nat -> (order V < tf)%nat -> (1 <= s_resprint st)%Z -> (1 <= s_maxiter st)%Z ->
  let W := map (fun i => rng env (base + 2 * i) [nth i (lens V) 0%nat; rk]) (seq 0 (order V)) in
  0 < lambda -> svd_works (svd LA) rk -> better_than_zero lambda V W rk ->
  (forall j, out_of_time (N:=Rnum) clock (ck x) (s_timelimit st) j = false) ->
  0 < tol ->
  (let f0 := objective lambda V W rk in trace_bound lambda f0 rk (order V) * f0 < IZR (s_maxiter st / s_resprint st) * (tol * tol)) ->
  exists W' G' y,
    test_ALS atof LA clock rank0 env trunc fuel base tf rounds same argv x = Ok (CP_done true W' G' y) /\
    grad_norm G' < tol /\ objective lambda V W' rk <= objective lambda V W rk.
Proof.
  intros LA Hsh atof clock rank0 same env trunc fuel base tf rounds argv x V st rk lambda tol Hrng HC H0 EV HV Ho Htf Hrp Hmi W Hl Hsv Hb Hlate Ht Hbig.
  destruct (start_ok atof env base argv V Hrng HV) as (HW & HG & HF). fold st rk in HW, HG, HF. fold W in HW.
  destruct (C81_never_zero LA Hsh V (zmats V rk) W rk lambda Hsv Hl (PBetter2.zmats_zero V rk) HW ltac:(lia) Hb) as (N1 & N2 & _).
  apply (C77_test_ALS_converges LA Hsh atof clock rank0 same env trunc fuel base tf rounds argv x V); auto.
Qed.
Print Assumptions C81_test_ALS_converges.

(** ** the exact phase of alsCP_PP: the objective does not rise; the factors it leaves are those it got or all have the same norm; the squares
    of the residuals it logs are at most the objective at its start *)
Theorem C81_exact_phase :
  forall (LA : lapack Rnum), svd_shaped (svd LA) ->
  forall (clock : nat -> R) (rank0 : bool) (V : tensor Rnum) (rk : nat) (tol tol_init limit lambda : R) (maxiter resprint iter : Z) (fuel : nat) (p : pp_state (N:=Rnum)),
  (order V = 4 \/ 6 <= order V <= 19)%nat -> (order V < fuel)%nat -> resprint <> 0%Z -> 0 < lambda -> svd_works (svd LA) rk ->
  factors_ok V (pW p) rk -> mats_ok V (pG p) rk -> mats_ok V (pdW p) rk -> better_than_zero lambda V (pW p) rk ->
  exists iter' q new,
    alsCP_DT_sub LA clock rank0 fuel V (tol : Rnum) tol_init limit lambda maxiter resprint iter p = Ok (iter', q) /\
    factors_ok V (pW q) rk /\ mats_ok V (pG q) rk /\ mats_ok V (pdW q) rk /\
    objective (lambda : Rnum) V (pW q) rk <= objective (lambda : Rnum) V (pW p) rk /\ better_than_zero lambda V (pW q) rk /\
    (pW q = pW p \/ exists a, 0 < a /\ forall m, (m < order V)%nat -> norm2 (fac (pW q) m) = a) /\
    rows (pio q) = (rows (pio p) ++ new)%list /\
    forall r, In r new -> exists d it g t e s, r = Row (N:=Rnum) d it g t 0 e s /\ (iter <= it)%Z /\ e * e <= objective (lambda : Rnum) V (pW p) rk.
Proof.
  intros LA Hsh clock rank0 V rk tol ti limit lambda mi rp it fuel p Ho Hf Hrp Hl Hsv HW HG HD Hb.
  destruct (exact_phase_ok Rnum_ring LA V rk Hsh clock rank0 tol ti limit (lambda : Rnum) mi rp fuel 0 (Reqb_eq _ _) Hrp ltac:(lia) Hf it p (conj HW (conj HG HD))) as [E G].
  destruct (exact_phase_better LA V rk lambda Hsh Hsv Hl clock rank0 tol ti limit mi rp ltac:(lia) (Z.to_nat (mi + 1 - it)) it (zmats V rk) p HW Hb) as (A1 & A2 & A3 & l & A4 & A5).
  destruct (exact_phase _ _ _ _ _ _ _ _ _ _ _ _ _ _ _) as [it' q]. cbn [snd] in *. exists it', q, l. split; [exact E|]. destruct G as (G1 & G2 & G3).
  split; [exact G1|]. split; [exact G2|]. split; [exact G3|]. split; [exact A1|]. split; [exact A2|]. split; [exact A3|]. split; [exact A4|].
  intros r Hr. destruct (A5 r Hr) as (d & i & g & t & e & s & Er & He). exists d, i, g, t, e, s. split; [exact Er|exact He].
Qed.
Print Assumptions C81_exact_phase.

(** ** the approximate phase of alsCP_PP, undamped, around factors of one norm a, with a guard tol_init < 1/2.  It makes at most 15 sweeps.
    Every sweep after which the guard still holds adds at most [pp_loss] to the objective: what is logged at iteration [it] is bounded by the
    objective at the checkpoint plus (it - iter) times that *)
Theorem C81_approx_phase :
  forall (LA : lapack Rnum), svd_shaped (svd LA) ->
  forall (clock : nat -> R) (rank0 same : bool) (V : tensor Rnum) (rk : nat) (tol tol_init limit lambda a : R) (maxiter resprint iter : Z) (p : pp_state (N:=Rnum)),
  (3 <= order V <= 9)%nat -> resprint <> 0%Z -> 0 < lambda -> svd_works (svd LA) rk -> 0 <= tol_init < / 2 ->
  factors_ok V (pW p) rk -> mats_ok V (pG p) rk -> mats_ok V (pdW p) rk ->
  0 < a -> (forall m, (m < order V)%nat -> norm2 (fac (pW p) m) = a) ->
  pp_stays_nonzero (svd LA) lambda V (pW p) rk (Nat.min 15 (Z.to_nat (maxiter + 1 - iter))) ->
  let f0 := objective (lambda : Rnum) V (pW p) rk in
  exists iter' q new,
    alsCP_PP_sub LA clock rank0 same V (tol : Rnum) tol_init limit lambda 1 maxiter resprint false iter p = Ok (iter', q) /\
    factors_ok V (pW q) rk /\ mats_ok V (pG q) rk /\ mats_ok V (pdW q) rk /\ (iter <= iter' <= iter + 15)%Z /\
    (too_far (N:=Rnum) V (tol_init : Rnum) (pW q) (pdW q) = false ->
     objective (lambda : Rnum) V (pW q) rk <= f0 + IZR (iter' - iter) * pp_loss V lambda a tol_init) /\
    rows (pio q) = (rows (pio p) ++ new)%list /\
    forall r, In r new -> exists d it g t e s, r = Row (N:=Rnum) d it g t 1 e s /\ (iter <= it)%Z /\ e * e <= f0 + IZR (it - iter) * pp_loss V lambda a tol_init.
Proof.
  intros LA Hsh clock rank0 same V rk tol ti limit lambda a mi rp it p Ho Hrp Hl Hsv Hti HW HG HD Ha HN Hnz f0.
  destruct (pp_phase_ok Rnum_ring LA V rk Hsh clock rank0 tol ti limit (lambda : Rnum) (1 : Rnum) mi rp false same 0 (Reqb_eq _ _) (Reqb_eq _ _) Hrp ltac:(lia) it p (conj HW (conj HG HD))) as [E G].
  assert (B : let r := approx_phase (N:=Rnum) clock rank0 V rk tol ti limit mi rp false (pp_step_all (pinv_solve (svd LA) rk) (lambda : Rnum) (1 : Rnum) V rk) tt it p in
    exists l, (it <= fst r <= it + 15)%Z /\ (too_far (N:=Rnum) V (ti : Rnum) (pW (snd r)) (pdW (snd r)) = false -> objective (lambda : Rnum) V (pW (snd r)) rk <= f0 + IZR (fst r - it) * pp_loss V lambda a ti) /\
      rows (pio (snd r)) = (rows (pio p) ++ l)%list /\ rows_are 1 (fun i e => (it <= i)%Z /\ e * e <= f0 + IZR (i - it) * pp_loss V lambda a ti) l).
  { cbv zeta. unfold approx_phase.
    assert (Triv : exists l, (it <= it <= it + 15)%Z /\ (too_far (N:=Rnum) V (ti : Rnum) (pW p) (pdW p) = false -> objective (lambda : Rnum) V (pW p) rk <= f0 + IZR (it - it) * pp_loss V lambda a ti) /\
      rows (pio p) = (rows (pio p) ++ l)%list /\ rows_are 1 (fun i e => (it <= i)%Z /\ e * e <= f0 + IZR (i - it) * pp_loss V lambda a ti) l).
    { exists []. rewrite app_nil_r. split; [lia|]. split; [|split; [reflexivity|intros r []]]. intros _. rewrite Z.sub_diag, Rmult_0_l, Rplus_0_r. apply Rle_refl. }
    destruct (it <=? mi)%Z; [|exact Triv]. destruct (negb false && _); [exact Triv|]. clear Triv.
    destruct (approx_loop_better LA V rk lambda Hsh Hsv Hl clock rank0 tol ti limit mi rp (pW p) a (Nat.min 15 (Z.to_nat (mi + 1 - it))) Ho HW Ha HN Hnz Hti (Z.to_nat (mi + 1 - it)) 0 it n0
      (tt, mkPP (pW p) (pG p) (zmats V rk) (ppn p) (pio p)) ltac:(lia) (le_n _) eq_refl) as (j & l & J1 & J2 & J3 & J4 & J5 & J6).
    { intros _. cbn [INR]. rewrite Rmult_0_l, Rplus_0_r. apply Rle_refl. }
    cbv zeta in *. destruct (approx_loop _ _ _ _ _ _ _ _ _ _ _ _ _ _ _) as [it' q]. cbn [fst snd pio] in *. exists l. split; [lia|].
    cbn [Nat.add] in J2, J3, J4. split; [|split; [exact J5|]].
    - rewrite <- J3 in J4. cbn [fst snd] in J4. intros F. rewrite J1. replace (IZR (it + Z.of_nat j - it)) with (INR j); [apply J4; exact F|].
      rewrite INR_IZR_INZ. f_equal. lia.
    - eapply rows_mono; [|exact J6]. cbv beta. intros i e [A C]. split; [exact A|]. cbn [INR] in C. rewrite Rplus_0_l in C. exact C. }
  destruct (approx_phase _ _ _ _ _ _ _ _ _ _ _ _ _ _) as [it' q]. cbv zeta in B. cbn [fst snd] in *. destruct B as (l & B1 & B2 & B3 & B4).
  exists it', q, l. split; [exact E|]. destruct G as (G1 & G2 & G3). split; [exact G1|]. split; [exact G2|]. split; [exact G3|]. split; [exact B1|]. split; [exact B2|]. split; [exact B3|].
  intros r Hr. destruct (B4 r Hr) as (d & i & g & t & e & s & Er & He). exists d, i, g, t, e, s. split; [exact Er|exact He].
Qed.
Print Assumptions C81_approx_phase.

(** *** a case: rank 1.  The exact phase starts from factors 1 for the tensor with the single entry 10; the approximate phase makes one sweep
    around factors 1 for the entry 11/5, which moves the first factor by 1/10 and keeps the guard 1/5 *)
Lemma LA1_works : svd_works (svd LA1) 1.
Proof. intros S HS _ _. apply LA1_valid. exact HS. Qed.
Lemma single_better : better_than_zero 1 (single 10) ones 1.
Proof.
  unfold better_than_zero. rewrite norm2_sq by apply (proj1 (four_ok 10 1 1 1 1)). rewrite objective_split.
  assert (E1 : residual2 (single 10) ones 1 = 81) by (cbv - [Rplus Rmult Rminus Ropp IZR]; ring).
  assert (E2 : sumsq (single 10) = 100) by (cbv - [Rplus Rmult Rminus Ropp IZR]; ring).
  assert (E3 : bigsum (N:=Rnum) (seq 0 (length ones)) (fun m => fro2 (fac ones m)) = 4) by (cbv - [Rplus Rmult Rminus Ropp IZR]; ring).
  rewrite E1, E2, E3. change (car Rnum) with R in *. lra.
Qed.
Theorem C81_case :
  svd_shaped (svd LA1) /\ svd_works (svd LA1) 1 /\
  factors_ok (single 10) ones 1 /\ better_than_zero 1 (single 10) ones 1 /\ order (single 10) = 4%nat /\
  factors_ok (single vv) ones 1 /\ (forall m, (m < 4)%nat -> norm2 (fac ones m) = 1) /\ pp_stays_nonzero (svd LA1) 1 (single vv) ones 1 1 /\
  let r := pp_after (svd LA1) 1 (single vv) ones 1 1 in
  too_far (N:=Rnum) (single vv) (/ 5 : Rnum) (fst r) (snd r) = false /\ norm2 (fac (snd r) 0) = / 10.
Proof.
  split; [apply LA1_svd_shaped|]. split; [apply LA1_works|]. split; [apply four_ok|]. split; [apply single_better|]. split; [reflexivity|]. split; [apply four_ok|].
  split; [intros m Hm; do 4 (destruct m as [|m]; [apply norm1; lra|]); lia|].
  destruct case_upto as (x1 & x2 & x3 & H1 & H2 & H3 & EU).
  set (p := 11 / 10 * x1 * x2 * x3).
  assert (P1 : 1 <= p).
  { unfold p. assert (A : 1 * 1 <= (11 / 10) * x1) by (apply Rmult_le_compat; lra). assert (B : 1 * 1 <= (11 / 10 * x1) * x2) by (apply Rmult_le_compat; lra).
    assert (C : 1 * 1 <= (11 / 10 * x1 * x2) * x3) by (apply Rmult_le_compat; lra). lra. }
  set (g := Rroot 4 p). assert (EG : g ^ 4 = p) by (apply Rroot_pow; [lia|lra]).
  assert (G1 : 1 <= g) by (apply (pow_le_inv _ _ 4); try apply Rroot_nonneg; try lia; try lra; rewrite EG; lra).
  assert (ES : pp_after (svd LA1) 1 (single vv) ones 1 1 = (four g g g g, four (11 / 10 - 1) (x1 - 1) (x2 - 1) (x3 - 1))).
  { change (pp_after (svd LA1) 1 (single vv) ones 1 1) with (pp_sweep solve1 (1 : Rnum) (1 : Rnum) (single vv) ones 1 (ones, four 0 0 0 0)).
    unfold pp_sweep. change (order (single vv)) with 4%nat. rewrite EU. rewrite (rescaled_four _ _ _ _ g); auto; lra. }
  split; [|split].
  - intros j m Hj Hm. change (order (single vv)) with 4%nat in Hm. destruct j as [|j].
    + change (snd (pp_after (svd LA1) 1 (single vv) ones 1 0)) with (four 0 0 0 0). do 4 (destruct m as [|m]; [unfold ones; cbn [fac four nth]; rewrite !add1, !norm1 by lra; lra|]). lia.
    + assert (j = 0%nat) by lia. subst j. rewrite ES. cbn [snd]. do 4 (destruct m as [|m]; [unfold ones; cbn [fac four nth]; rewrite !add1, !norm1 by lra; lra|]). lia.
  - rewrite ES. cbn [fst snd]. assert (D := case_count g (11 / 10 - 1) (x1 - 1) (x2 - 1) (x3 - 1) G1 ltac:(lra) ltac:(lra) ltac:(lra) ltac:(lra)).
    rewrite (dw_count_ok LA1 (single vv) 1) in D by (apply four_ok || apply four_mats).
    apply (f_equal (fun r => match r with Ok c => (0 <? c)%nat | _ => true end)) in D. cbv beta iota in D. rewrite count_exists in D. exact D.
  - rewrite ES. cbn [snd]. change (norm2 (one_by_one (11 / 10 - 1)) = / 10). rewrite norm1 by lra. lra.
Qed.
Print Assumptions C81_case.
