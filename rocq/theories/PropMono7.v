(** C69 for alsCP; C77: the program test_ALS for the CP model, over the reals *)
From Coq Require Import List ZArith QArith Qround Reals Lra Lia Bool Arith String Ascii.
From Verif Require Import Base Num NumR Tensor Spec Spec2 Spec4 Spec5 Spec6 Spec10 Spec11 Spec15 Spec18 Spec19 MCommon MCP MGen MRun MMains PBase PTensor PSum PMttkrp PMat PMatAlg PResid PGrad PNormalize PALS PCPD PDrivers PDrivers2
  PTuckMono PropCPD PropTucker3 PConv PConv2 PConv3 PConv4 PropConv PropConv3 PRun PropRun PropRun2 PropMains2 PropErr.
Import ListNotations.
Local Close Scope Q_scope.
Local Open Scope R_scope.
Local Notation length := List.length.

Lemma zero_norms (V : tensor Rnum) F rk : mats_ok V F rk -> zero_mats V F rk -> bigsum (N:=Rnum) F norm2 = 0.
Proof.
  intros [LF HM] HZ. assert (A : forall T, In T F -> norm2 T = 0).
  { intros T HT. apply (In_nth F T tnil) in HT. destruct HT as (m & Hm & <-). rewrite LF in Hm. specialize (HM m Hm). fold (fac F m) in *. rewrite norm2_sumsq by apply HM.
    rewrite <- sqrt_0. f_equal. unfold sumsq. rewrite (bigsum_ext (N:=Rnum) _ _ (fun _ => 0)).
    - induction (all_idx (lens (fac F m))) as [|y l IH]; [reflexivity|]. rewrite bs_cons, IH. apply Rplus_0_r.
    - intros y Hy. destruct HM as [HL _]. rewrite HL in Hy. apply all_idx_in in Hy. apply inb2_inv in Hy. destruct Hy as (i & j & -> & Hi & Hj).
      change (at_ (fac F m) [i; j]) with (el (fac F m) i j). rewrite HZ by auto. apply Rmult_0_l. }
  clear LF HM HZ. induction F as [|T F IH]; [reflexivity|]. rewrite bs_cons, A, IH; [apply Rplus_0_r| |left; reflexivity]. intros T' HT'. apply A. right. exact HT'.
Qed.
(** alsCP (no regularisation): the factors it returns fit at least as well as those it was given *)
Theorem C69_plain_run :
  forall (LA : lapack Rnum), svd_shaped (svd LA) ->
  forall (clock : nat -> R) (V : tensor Rnum) (rk s : nat) (W G F : list (tensor Rnum)) (tol limit : R) (maxiter : Z) (x : io (N:=Rnum)),
  (2 <= order V <= 10)%nat -> lens V = repeat s (order V) ->
  factors_ok V W rk -> mats_ok V F rk -> mats_ok V G rk -> zero_mats V F rk -> (0 <= maxiter)%Z ->
  svd_solvable_along (svd LA) 0 V F rk W -> factors_stay_nonzero (svd LA) 0 V F rk W ->
  exists ret st,
    alsCP LA clock V W G F (tol : Rnum) limit maxiter x = Ok (ret, st) /\
    factors_ok V (aW st) rk /\ resid_norm V (aW st) rk <= resid_norm V W rk.
Proof.
  intros LA Hsh clock V rk s W G F tol limit maxiter x Ho Hc HW HF HG HZ Hm Hs Hz.
  destruct (C26_alsCP_run Rnum Rnum_ring LA Hsh clock V rk s W G F tol limit maxiter x Ho Hc HW HF HG Hm) as (k & stopped & st & E & _ & _ & EW & _).
  exists stopped, st. split; [exact E|].
  assert (EN : neqb (n:=Rnum) (bigsum F norm2) n0 = true).
  { rewrite (zero_norms V F rk HF HZ). change (Reqb 0 0 = true). destruct (Reqb_spec 0 0); [reflexivity|lra]. }
  assert (EW' : aW st = als_factors (svd LA) 0 V F rk W k).
  { rewrite EW. unfold als_factors. clear - EN. induction k as [|k IH]; [reflexivity|].
    change (Nat.iter (S k) ?f W) with (f (Nat.iter k f W)). cbv beta. rewrite IH. cbv zeta. rewrite EN. reflexivity. }
  rewrite EW'. split; [apply (Wf_fac LA V F W rk 0 Hsh HW)|].
  rewrite !(resid_norm_sqrt V) by (auto; apply (Wf_fac LA V F W rk 0 Hsh HW)). apply sqrt_le_1_alt. rewrite <- !objective_zero.
  apply (f_mono LA V F W rk 0 Hsh ltac:(lia) HW HZ ltac:(lra) Hs Hz 0 k). lia.
Qed.
Print Assumptions C69_plain_run.

(** ** C77.  The program test_ALS for the CP model without pairwise perturbation (its default): from the random start W the program ends with
    factors whose regularised objective is no larger; with -lambda 0 (the default) the residuals it logs never increase *)
Lemma zmats_zero (V : tensor Rnum) rk : zero_mats V (zmats V rk) rk.
Proof.
  intros m i j Hm Hi Hj. unfold zmats, fac. rewrite (nth_map_lt _ _ _ 0%nat) by (rewrite seq_length; auto). rewrite seq_nth by auto. unfold el, zeros. rewrite at_tabulate by (apply inb2; auto). reflexivity.
Qed.
Lemma lambda_nonneg (atof : string -> Rnum) argv : 0 <= s_lambda (test_ALS_settings atof argv).
Proof.
  unfold test_ALS_settings. cbn [s_lambda]. unfold opt_dbl. assert (Z : (nlit (n:=Rnum) 0 : R) = 0) by (cbn; unfold Q2R; cbn; lra).
  destruct (getCmdOption argv "-lambda") as [v|]; [|rewrite Z; apply Rle_refl]. destruct (dneg (atof v)) eqn:E; [rewrite Z; apply Rle_refl|].
  unfold dneg in E. apply nltb_ge in E. rewrite Z in E. exact E.
Qed.
Section T.
Context (LA : lapack Rnum) (Hsh : svd_shaped (svd LA)).
Context (atof : string -> Rnum) (clock : nat -> R) (rank0 same : bool) (env : environment (N:=Rnum)) (trunc : Rnum -> nat) (fuel base tf rounds : nat) (argv : list string)
  (x : io (N:=Rnum)) (V : tensor Rnum).
Let st := test_ALS_settings atof argv.
Let rk := Z.to_nat (s_rank st).
Let W := map (fun i => rng env (base + 2 * i) [nth i (lens V) 0%nat; rk]) (seq 0 (order V)).
Let G := map (fun i => rng env (base + 2 * i + 1) [nth i (lens V) 0%nat; rk]) (seq 0 (order V)).
Hypothesis Hrng : forall k ls, lens (rng env k ls) = ls /\ Tensor.wf (rng env k ls).
Hypothesis HC : String.get 0 (s_model st) = Some "C"%char.
Hypothesis H0 : s_pp st = 0%Z.
Hypothesis EV : run_tensor env fuel st = Ok V.
Hypothesis HV : Tensor.wf V.
Lemma test_ALS_unfold : test_ALS atof LA clock rank0 env trunc fuel base tf rounds same argv x
  = bind (alsCP_DT LA clock rank0 tf V W G (zmats V rk) (nmul (s_tol st) (norm2 V)) (s_timelimit st) (s_maxiter st) (s_lambda st) (s_resprint st) false x)
      (fun '(ret, s) => Ok (CP_done ret (dtW s) (dtG s) (dtio s))).
Proof.
  unfold test_ALS. fold st. unfold test_ALS_main. rewrite EV. cbn [bind]. fold rk. rewrite (head_char _ _ HC). cbn [Ascii.eqb Bool.eqb]. rewrite H0. reflexivity.
Qed.
Lemma start_ok : factors_ok V W rk /\ mats_ok V G rk /\ mats_ok V (zmats V rk) rk.
Proof.
  split; [split; [exact HV|apply (start_mats env V rk (fun i => base + 2 * i)%nat Hrng)]|]. split; [apply (start_mats env V rk (fun i => base + 2 * i + 1)%nat Hrng)|]. apply PPPDriver.zmats_mats.
Qed.
End T.
Theorem C77_test_ALS :
  forall (LA : lapack Rnum), svd_shaped (svd LA) ->
  forall (atof : string -> Rnum) (clock : nat -> R) (rank0 same : bool) (env : environment (N:=Rnum)) (trunc : Rnum -> nat) (fuel base tf rounds : nat) (argv : list string)
    (x : io (N:=Rnum)) (V : tensor Rnum),
  let st := test_ALS_settings atof argv in
  let rk := Z.to_nat (s_rank st) in
  let lambda := s_lambda st in
  (forall k ls, lens (rng env k ls) = ls /\ Tensor.wf (rng env k ls)) ->
  String.get 0 (s_model st) = Some "C"%char -> s_pp st = 0%Z ->
  run_tensor env fuel st = Ok V -> Tensor.wf V -> (order V = 4 \/ 6 <= order V <= 19)%nat -> (order V < tf)%nat -> s_resprint st <> 0%Z ->
  let W := map (fun i => rng env (base + 2 * i) [nth i (lens V) 0%nat; rk]) (seq 0 (order V)) in
  svd_solvable_along (svd LA) lambda V (zmats V rk) rk W -> factors_stay_nonzero (svd LA) lambda V (zmats V rk) rk W ->
  exists ret W' G' y new,
    test_ALS atof LA clock rank0 env trunc fuel base tf rounds same argv x = Ok (CP_done ret W' G' y) /\
    rows y = (rows x ++ new)%list /\ objective lambda V W' rk <= objective lambda V W rk /\
    (lambda = 0 -> exists es, map row_residual new = map Some es /\ nonincreasing es).
Proof.
  intros LA Hsh atof clock rank0 same env trunc fuel base tf rounds argv x V st rk lambda Hrng HC H0 EV HV Ho Htf Hrp W Hs Hz.
  destruct (start_ok atof env base argv V Hrng HV) as (HW & HG & HF). fold st rk in HW, HG, HF. fold W in HW.
  rewrite (test_ALS_unfold LA atof clock rank0 same env trunc fuel base tf rounds argv x V HC H0 EV). fold st rk. fold W.
  set (G := map (fun i => rng env (base + 2 * i + 1) [nth i (lens V) 0%nat; rk]) (seq 0 (order V))) in *.
  destruct (C69_run LA Hsh clock rank0 false V rk W G (zmats V rk) (nmul (s_tol st) (norm2 V)) (s_timelimit st) lambda (s_maxiter st) (s_resprint st) tf x Ho Htf HW HF HG (zmats_zero V rk)
    ltac:(apply (test_ALS_in_range atof argv)) Hrp (lambda_nonneg atof argv) Hs Hz) as (ret & sf & new & E & ER & HO & HE).
  unfold lambda in E. rewrite E. cbn [bind]. exists ret, (dtW sf), (dtG sf), (dtio sf), new. split; [reflexivity|]. split; [exact ER|]. split; [exact HO|]. intros Hl. apply HE; auto.
Qed.
Print Assumptions C77_test_ALS.
(** with -lambda > 0 and enough iterations the program ends by convergence *)
Theorem C77_test_ALS_converges :
  forall (LA : lapack Rnum), svd_shaped (svd LA) ->
  forall (atof : string -> Rnum) (clock : nat -> R) (rank0 same : bool) (env : environment (N:=Rnum)) (trunc : Rnum -> nat) (fuel base tf rounds : nat) (argv : list string)
    (x : io (N:=Rnum)) (V : tensor Rnum),
  let st := test_ALS_settings atof argv in
  let rk := Z.to_nat (s_rank st) in
  let lambda := s_lambda st in
  let tol := s_tol st * norm2 V in
  (forall k ls, lens (rng env k ls) = ls /\ Tensor.wf (rng env k ls)) ->
  String.get 0 (s_model st) = Some "C"%char -> s_pp st = 0%Z ->
  run_tensor env fuel st = Ok V -> Tensor.wf V -> (order V = 4 \/ 6 <= order V <= 19)%nat -> (order V < tf)%nat -> (1 <= s_resprint st)%Z -> (1 <= s_maxiter st)%Z ->
  let W := map (fun i => rng env (base + 2 * i) [nth i (lens V) 0%nat; rk]) (seq 0 (order V)) in
  0 < lambda -> svd_valid_along (svd LA) lambda V (zmats V rk) rk W -> factors_stay_nonzero (svd LA) lambda V (zmats V rk) rk W ->
  (forall j, out_of_time (N:=Rnum) clock (ck x) (s_timelimit st) j = false) ->
  0 < tol ->
  (let f0 := objective lambda V W rk in trace_bound lambda f0 rk (order V) * f0 < IZR (s_maxiter st / s_resprint st) * (tol * tol)) ->
  exists W' G' y,
    test_ALS atof LA clock rank0 env trunc fuel base tf rounds same argv x = Ok (CP_done true W' G' y) /\
    grad_norm G' < tol /\ objective lambda V W' rk <= objective lambda V W rk.
Proof.
  intros LA Hsh atof clock rank0 same env trunc fuel base tf rounds argv x V st rk lambda tol Hrng HC H0 EV HV Ho Htf Hrp Hmi W Hl Hs Hz Hlate Ht Hbig.
  destruct (start_ok atof env base argv V Hrng HV) as (HW & HG & HF). fold st rk in HW, HG, HF. fold W in HW.
  rewrite (test_ALS_unfold LA atof clock rank0 same env trunc fuel base tf rounds argv x V HC H0 EV). fold st rk. fold W.
  set (G := map (fun i => rng env (base + 2 * i + 1) [nth i (lens V) 0%nat; rk]) (seq 0 (order V))) in *.
  destruct (C70_converges LA Hsh clock rank0 false V rk W G (zmats V rk) tol (s_timelimit st) lambda (s_maxiter st) (s_resprint st) tf x Ho Htf HW HF HG (zmats_zero V rk)
    Hmi Hrp Hl Hs Hz Hlate Ht Hbig) as (sf & E & En & Hn & HO).
  change (nmul (s_tol st) (norm2 V)) with tol. unfold lambda in E. rewrite E. cbn [bind]. exists (dtW sf), (dtG sf), (dtio sf). split; [reflexivity|]. split; [rewrite <- En; exact Hn|exact HO].
Qed.
Print Assumptions C77_test_ALS_converges.
(** a case: the positive 2x2x2x2 tensor eV, rank 1, start (1,1) in every mode, random gradients 100 (so that the first check does not stop the run).
    The first run has no regularisation, the second -lambda 1 and a budget that makes it converge *)
Definition tEnv : environment (N:=Rnum) :=
  mkEnv (N:=Rnum) (fun k ls => tabulate ls (fun x => (if Nat.eqb (length ls) 4 then IZR (1 + Z.of_nat (list_sum x)) else if Nat.even k then 1 else 100) : Rnum)) all_pairs (fun _ ls => zeros ls).
Definition tAtof (s : string) : Rnum := IZR (atoi s).
Definition tCmd (l : string) : list string :=
  ["./test_ALS"; "-tensor"; "r2"; "-dim"; "4"; "-size"; "2"; "-rank"; "1"; "-tol"; "1"; "-lambda"; l; "-maxiter"; "6000000"]%string.
Theorem C77_case :
  (forall k ls, lens (rng tEnv k ls) = ls /\ Tensor.wf (rng tEnv k ls)) /\
  (exists ret W' G' y es,
    test_ALS tAtof LA1 eClock true tEnv (fun _ => 0%nat) 5 0 5 1 true (tCmd "0") eX = Ok (CP_done ret W' G' y) /\
    objective (0 : Rnum) eV W' 1 <= 80 /\ map row_residual (rows y) = map Some es /\ nonincreasing es) /\
  (10 < grad_norm (map (fun i => rng tEnv (0 + 2 * i + 1) [2; 1]%nat) [0; 1; 2; 3]%nat) /\
   exists W' G' y,
    test_ALS tAtof LA1 eClock true tEnv (fun _ => 0%nat) 5 0 5 1 true (tCmd "1") eX = Ok (CP_done true W' G' y) /\
    grad_norm G' < 1 * norm2 eV /\ objective (1 : Rnum) eV W' 1 <= 88).
Proof.
  assert (Hrng : forall k ls, lens (rng tEnv k ls) = ls /\ Tensor.wf (rng tEnv k ls)) by (intros k ls; split; [reflexivity|apply tabulate_wf]).
  split; [exact Hrng|].
  assert (EVt : forall l, run_tensor tEnv 5 (test_ALS_settings tAtof (tCmd l)) = Ok eV).
  { intros l. rewrite (C53_tensor_r2 Rnum tEnv 5) by reflexivity. reflexivity. }
  assert (EWt : map (fun i => rng tEnv (0 + 2 * i) [nth i (lens eV) 0%nat; 1%nat]) (seq 0 (order eV)) = eW) by reflexivity.
  assert (L0 : s_lambda (test_ALS_settings tAtof (tCmd "0")) = 0).
  { change (s_lambda (test_ALS_settings tAtof (tCmd "0"))) with (if Rltb 0 (nlit (n:=Rnum) 0) then nlit (n:=Rnum) 0 else 0 : R).
    destruct (Rltb_spec 0 (nlit (n:=Rnum) 0)) as [H|H]; [|reflexivity]. revert H. cbn. unfold Q2R. cbn. lra. }
  assert (L1 : s_lambda (test_ALS_settings tAtof (tCmd "1")) = 1).
  { change (s_lambda (test_ALS_settings tAtof (tCmd "1"))) with (if Rltb 1 (nlit (n:=Rnum) 0) then nlit (n:=Rnum) 0 else 1 : R).
    destruct (Rltb_spec 1 (nlit (n:=Rnum) 0)) as [H|H]; [|reflexivity]. revert H. cbn. unfold Q2R. cbn. lra. }
  assert (T1 : s_tol (test_ALS_settings tAtof (tCmd "1")) = 1).
  { change (s_tol (test_ALS_settings tAtof (tCmd "1"))) with (if (Rltb 1 (nlit (n:=Rnum) 0) || Rltb (nlit (n:=Rnum) 1) 1)%bool then nlit (n:=Rnum) (1 # 10000000000) else 1 : R).
    destruct (Rltb_spec 1 (nlit (n:=Rnum) 0)) as [H|H]; [revert H; cbn; unfold Q2R; cbn; lra|]. destruct (Rltb_spec (nlit (n:=Rnum) 1) 1) as [H'|H']; [revert H'; cbn; unfold Q2R; cbn; lra|reflexivity]. }
  assert (PZ : zero_mats eV (zmats eV 1) 1) by apply zmats_zero.
  split.
  - destruct (along_pos eV (zmats eV 1) eW 0 PZ e_pos ltac:(lra) ltac:(rewrite e_order; lia) e_lenpos e_pos_fac) as (_ & A2 & A3).
    destruct (C77_test_ALS LA1 LA1_svd_shaped tAtof eClock true true tEnv (fun _ => 0%nat) 5 0 5 1 (tCmd "0") eX eV Hrng eq_refl eq_refl (EVt "0"%string) (proj1 e_fac) (or_introl eq_refl)
      ltac:(rewrite e_order; lia) ltac:(discriminate)) as (ret & W' & G' & y & new & E & ER & HO & HE).
    + rewrite L0. exact A2.
    + rewrite L0. exact A3.
    + rewrite L0 in HO, HE. destruct (HE eq_refl) as (es & H1 & H2). exists ret, W', G', y, es. split; [exact E|]. split.
      * change (objective (0 : Rnum) eV W' 1 <= objective (0 : Rnum) eV eW 1) in HO. rewrite e_objective in HO. lra.
      * rewrite ER. split; [exact H1|exact H2].
  - split; [exact e_grads|].
    destruct (along_pos eV (zmats eV 1) eW 1 PZ e_pos ltac:(lra) ltac:(rewrite e_order; lia) e_lenpos e_pos_fac) as (A1 & _ & A3).
    assert (NV : norm2 eV * norm2 eV = 160).
    { rewrite norm2_sumsq by apply e_fac. rewrite sqrt_sqrt by apply sumsq_nonneg. unfold sumsq. cbv -[Rplus Rmult IZR]. lra. }
    assert (NP : 0 < norm2 eV). { rewrite norm2_sumsq by apply e_fac. apply sqrt_lt_R0. unfold sumsq. cbv -[Rplus Rmult IZR Rlt]. lra. }
    destruct (C77_test_ALS_converges LA1 LA1_svd_shaped tAtof eClock true true tEnv (fun _ => 0%nat) 5 0 5 1 (tCmd "1") eX eV Hrng eq_refl eq_refl (EVt "1"%string) (proj1 e_fac) (or_introl eq_refl)
      ltac:(rewrite e_order; lia) ltac:(cbn; lia) ltac:(vm_compute; discriminate)) as (W' & G' & y & E & HG & HO).
    + rewrite L1. lra.
    + rewrite L1. exact A1.
    + rewrite L1. exact A3.
    + intros j. change (s_timelimit (test_ALS_settings tAtof (tCmd "1"))) with (nlit (n:=Rnum) 5000). pose proof (e_clock j) as Hc. unfold out_of_time in *. apply Rnle. apply Rnle in Hc. eapply Rle_trans; [exact Hc|].
      change (1 <= Q2R 5000). unfold Q2R. cbn. lra.
    + rewrite T1, Rmult_1_l. exact NP.
    + rewrite L1, T1, Rmult_1_l. change (trace_bound 1 (objective (1 : Rnum) eV eW 1) 1 4 * objective (1 : Rnum) eV eW 1 < IZR (6000000 / 10) * (norm2 eV * norm2 eV)).
      rewrite NV, e_objective. unfold trace_bound. cbn [Nat.sub INR pow]. change (6000000 / 10)%Z with 600000%Z. lra.
    + rewrite T1 in HG. rewrite L1 in HO. exists W', G', y. split; [exact E|]. split; [exact HG|].
      change (objective (1 : Rnum) eV W' 1 <= objective (1 : Rnum) eV eW 1) in HO. rewrite e_objective in HO. lra.
Qed.
Print Assumptions C77_case.
