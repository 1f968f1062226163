(** C62: the program pp_bench *)
From Coq Require Import List ZArith QArith Lia Bool Arith String Ascii Permutation.
From Verif Require Import Base Num Tensor Spec Spec2 Spec3 Spec4 Spec5 Spec7 Spec8 Spec9 Spec12 Spec13 Spec14 Spec15 Spec16 MCommon MCP MTucker MGen MRun MMains PBase PTensor PGen PGen2 PDrivers PTucker PTSweep
  PDriverRef PTDriverRef PMainRef PropALS PropTucker PropTucker2 PropDrivers PropDrivers2 PropMains PropMains2 PropRun PropRun2 PTreeProps PDT PTree PTtm PMat PKhatri PSum PMttkrp PGrad PPPDriver.
Import ListNotations.
Local Close Scope Q_scope.
Local Open Scope string_scope.

Lemma for_again {A B} (f : nat -> A -> res A) (g : B -> option B) (Rel : A -> B -> Prop) :
  (forall i a b, Rel a b -> match g b with Some b' => exists a', f i a = Ok a' /\ Rel a' b' | None => f i a = Err LoopFuel end) ->
  forall n a b, Rel a b -> match again n g b with Some b' => exists a', for_ 0 n f a = Ok a' /\ Rel a' b' | None => for_ 0 n f a = Err LoopFuel end.
Proof.
  intros H n. unfold for_. rewrite Nat.sub_0_r. generalize 0 as i. induction n as [|n IH]; intros i a b Hab; cbn [again loop].
  - exists a. auto.
  - assert (Hi := H i a b Hab). destruct (g b) as [b'|]; [|rewrite Hi; reflexivity]. destruct Hi as (a' & -> & Hr). cbn [bind]. apply IH. exact Hr.
Qed.

Lemma copy_all_ok {N : num} (RL : ring_laws N) (o : nat) (D W : list (tensor N)) (r c : nat -> nat) : List.length D = o -> List.length W = o ->
  (forall m, m < o -> lens (fac D m) = [r m; c m]) -> (forall m, m < o -> is_mat (fac W m) (r m) (c m)) -> copy_all o D W = Ok W.
Proof.
  intros LD LW HD HW. unfold copy_all.
  destruct (for_inv (fun j D' => List.length D' = o /\ (forall m, m < o -> lens (fac D' m) = [r m; c m]) /\ forall m, m < j -> fac D' m = fac W m)
    (fun j D => Dj <- lget D j ;; Wj <- lget W j ;; T <- assign false Dj sij [prodt [(Wj, sij)]] ;; lput D j T) 0 o D) as (D' & E & L & _ & H).
  - lia.
  - split; [auto|]. split; [auto|]. intros; lia.
  - intros j D' Hj (L & HL & HE).
    rewrite (lget_ok D' j tnil) by lia. cbn [bind]. rewrite (lget_ok W j tnil) by lia. cbn [bind]. fold (fac D' j) (fac W j).
    assert (EA := assign_copy RL (fac D' j) (fac W j) (r j) (c j) (HL j ltac:(lia)) (HW j ltac:(lia))). unfold prodt. rewrite EA. cbn [bind]. clear EA.
    rewrite lput_ok by lia. eexists. split; [reflexivity|]. split; [rewrite lset_length; auto|]. unfold fac in *. split.
    + intros m Hm. destruct (Nat.eq_dec m j) as [->|Hn]; [rewrite lset_same by lia; apply (HW j Hm)|rewrite lset_other by auto; auto].
    + intros m Hm. destruct (Nat.eq_dec m j) as [->|Hn]; [rewrite lset_same by lia; reflexivity|rewrite lset_other by auto; apply HE; lia].
  - rewrite E. f_equal. apply nth_eq_ext with (d:=tnil); [lia|]. intros m Hm. apply H. lia.
Qed.
Lemma copy_back {N : num} (RL : ring_laws N) (V : tensor N) (D W : list (tensor N)) R : mats_ok V D R -> mats_ok V W R -> copy_all (order V) D W = Ok W.
Proof.
  intros [LD HD] [LW HW]. apply (copy_all_ok RL (order V) D W (fun m => nth m (lens V) 0) (fun _ => R)); auto. intros m Hm. apply (HD m Hm).
Qed.
(** pp_bench ignores -pp, and its sizes are those of test_ALS *)
Lemma pp_bench_in_range {N : num} (atof : string -> N) argv : let st := pp_bench_settings atof argv in
  (0 <= s_dim st /\ 0 <= s_maxiter st /\ 0 <= s_size st /\ 0 <= s_rank st <= s_size st /\ 0 <= s_resprint st)%Z.
Proof.
  cbv zeta. assert (H := test_ALS_in_range atof argv). cbv zeta in H. destruct H as (_ & H). exact H.
Qed.
(** the driver keeps the shapes of factors and gradients *)
Lemma loop_good {N : num} (V : tensor N) R tol mi bench ex ap (Hex : bench = true \/ forall it p, good V R p -> good V R (snd (ex it p))) (Hap : forall it p, good V R p -> good V R (snd (ap it p))) :
  forall rounds it p it' p', good V R p -> driver_loop tol mi bench ex ap rounds it p = Some (it', p') -> good V R p'.
Proof.
  induction rounds as [|n IH]; intros it p it' p' Hp; cbn [driver_loop]; destruct (_ && _).
  - discriminate.
  - intros E. injection E as _ <-. exact Hp.
  - assert (H1 : good V R (snd (if bench then (it, p) else ex it p))). { destruct bench; auto. destruct Hex; [discriminate|auto]. }
    destruct (if bench then _ else _) as [i1 p1]. cbn [snd] in H1. apply (Hap i1) in H1. destruct (ap i1 p1) as [i2 p2]. cbn [snd] in H1. apply IH. exact H1.
  - intros E. injection E as _ <-. exact Hp.
Qed.
Definition bench_orders (o : nat) : Prop := o = 4 \/ 6 <= o <= 9.

(** the CP benchmark *)
Theorem C62_pp_bench_cp :
  forall (N : num), ring_laws N ->
  forall (LA : lapack N), svd_shaped (svd LA) ->
  forall (atof : string -> N) (clock : nat -> N) (rank0 same : bool) (env : environment) (fuel base tf rounds : nat)
    (argv : list string) (x : io) (V : tensor N),
  let st := pp_bench_settings atof argv in
  let R := Z.to_nat (s_rank st) in
  (forall k ls, lens (rng env k ls) = ls /\ wf (rng env k ls)) ->
  String.get 0 (s_model st) = Some "C"%char -> String.get 0 (s_tensor st) <> Some "o"%char ->
  run_tensor env fuel st = Ok V -> wf V -> order V = 4 \/ 6 <= order V <= 9 -> order V < tf ->
  (forall y : N, neqb y n0 = true -> y = n0) -> (forall y : N, neqb y n1 = true -> y = n1) -> s_resprint st <> 0%Z ->
  let W := map (fun i => rng env (base + 2 * i) [nth i (lens V) 0; R]) (seq 0 (order V)) in
  let G := map (fun i => rng env (base + 2 * i + 1) [nth i (lens V) 0; R]) (seq 0 (order V)) in
  pp_bench atof LA clock rank0 env fuel base tf rounds same argv x
  = match cp_bench clock rank0 st rounds V W (pinv_solve (svd LA) R) G x with
    | Some (x1, x2, G') => Ok (Some (mkBench x1 x2 W G' tnil))
    | None => Err LoopFuel
    end.
Proof.
  intros N RL LA Hsh atof clk rank0 same env fuel base tf rounds argv x V st R Hrng HC Hno EV HV Ho Htf Hz H1 Hrp W G.
  unfold pp_bench. fold st. unfold pp_bench_main, bench_tensor.
  assert (Hc : Ascii.eqb (char_at (s_tensor st) 0) "o" = false).
  { apply Ascii.eqb_neq. unfold char_at. destruct (String.get 0 (s_tensor st)); [|discriminate]. intros ->. apply Hno. reflexivity. }
  rewrite Hc, EV. cbn [bind]. fold R. rewrite (head_char _ _ HC).
  change (start_W env base R V) with W. change (start_G env base R V) with G. change (start_F R V) with (zmats V R).
  assert (HW : mats_ok V W R) by (apply (start_mats env V R (fun i => base + 2 * i) Hrng)).
  assert (HG : mats_ok V G R) by (apply (start_mats env V R (fun i => base + 2 * i + 1) Hrng)).
  assert (HF : mats_ok V (zmats V R) R) by apply zmats_mats.
  assert (HWf : factors_ok V W R) by (split; [exact HV|exact HW]).
  rewrite (copy_back RL V (zmats V R) W R HF HW). cbn [bind]. cbn [Ascii.eqb Bool.eqb].
  unfold cp_bench. fold R. set (tol := nmul (s_tol st) (norm2 V)).
  match goal with |- context [again ?n ?g (G, x)] => set (dtr := g) end.
  match goal with |- context [for_ 0 ?n ?f (W, G, x)] => 
    assert (HD := for_again f dtr (fun a b => a = (W, fst b, snd b) /\ mats_ok V (fst b) R)) end.
  match type of HD with ?A -> _ => assert (HA : A) end.
  { intros _ a [g y] [-> Hg]. cbn [fst snd] in *. unfold dtr.
    destruct (dt_algorithm_ok RL LA V clk rank0 tol (s_timelimit st) 1 (s_resprint st) true tf Hrp Htf R (s_lambda st) (zmats V R) Hsh ltac:(lia) HF W g y HWf Hg) as (s & E & E2 & [GW GG]).
    destruct (dt_algorithm _ _ _ _ _ _ _ _ _ _ _ _ _ _) as [ret fin]. cbn [fst snd] in *. rewrite E. cbn [bind]. subst fin. 
    rewrite (copy_back RL V (dtW s) W R (proj2 GW) HW). cbn [bind]. eexists. split; [reflexivity|]. split; [reflexivity|]. exact GG. }
  specialize (HD HA (Z.to_nat (s_maxiter st)) (W, G, x) (G, x) (conj eq_refl HG)). clear HA.
  destruct (again _ dtr (G, x)) as [[G1 x1]|]; [|rewrite HD; reflexivity].
  destruct HD as (a & -> & -> & HG1). cbn [fst snd bind] in *.
  match goal with |- context [again ?n ?g (G1, x1)] => set (ppr := g) end.
  match goal with |- context [for_ 0 ?n ?f (W, G1, x1)] => 
    assert (HD := for_again f ppr (fun a b => a = (W, fst b, snd b) /\ mats_ok V (fst b) R)) end.
  match type of HD with ?A -> _ => assert (HA : A) end.
  { intros _ a [g y] [-> Hg]. cbn [fst snd] in *. unfold ppr.
    rewrite (C57_alsCP_PP_is_the_algorithm N RL LA Hsh clk rank0 same V R) by auto.
    destruct (pp_algorithm _ _ _ _ _ _ _ _ _ _ _ _ _ _ _ _ _) as [[ret p]|] eqn:E; [|reflexivity]. cbn [bind].
    assert (Hgood : good V R p).
    { unfold pp_algorithm, driver in E. destruct (driver_loop _ _ _ _ _ _ _ _) as [[it q]|] eqn:Ed; [|discriminate]. injection E as _ <-.
      refine (loop_good V R _ _ _ _ _ _ _ _ _ _ _ _ _ Ed); [left; reflexivity| |split; [exact HWf|split; [exact Hg|apply zmats_mats]]].
      intros it0 p0 Hp0. refine (proj2 (pp_phase_ok RL LA V R Hsh clk rank0 tol (s_pp_res_tol st) (s_timelimit st) (s_lambda st) (s_magni st) 1 (s_resprint st) true same 0 (Hz _) (H1 _) Hrp ltac:(lia) it0 p0 Hp0)). }
    destruct Hgood as (GW & GG & _).
    rewrite (copy_back RL V (pW p) W R (proj2 GW) HW). cbn [bind]. eexists. split; [reflexivity|]. split; [reflexivity|]. exact GG. }
  specialize (HD HA (Z.to_nat (s_maxiter st)) (W, G1, x1) (G1, x1) (conj eq_refl HG1)). clear HA.
  destruct (again _ ppr (G1, x1)) as [[G2 x2]|]; [|rewrite HD; reflexivity].
  destruct HD as (a & -> & -> & HG2). reflexivity.
Qed.
Print Assumptions C62_pp_bench_cp.

Lemma tloop_good {N : num} (RL : ring_laws N) (LA : lapack N) (V : tensor N) ranks clk rank0 tol limit mi rp (Ho : 3 <= order V <= 9) (Hr : ranks_ok (lens V) ranks) (Hsq : sqrt_nonneg (N:=N)) (Hsvd : svd_trunc_shaped (svd LA)) (Hrp : rp <> 0%Z) :
  forall rounds ti it k it' k', tgood V ranks k -> tk_driver_loop clk rank0 (svd LA) V ranks tol limit mi rp true rounds ti it k = Some (it', k') -> tgood V ranks k'.
Proof.
  induction rounds as [|n IH]; intros ti it k it' k' Hp; cbn [tk_driver_loop]; destruct (_ && _).
  - discriminate.
  - intros E. injection E as _ <-. exact Hp.
  - assert (H1 := proj2 (tk_approx_phase_ok RL LA V ranks Ho Hr Hsq Hsvd clk rank0 tol limit mi rp true Hrp ti it k Hp)).
    destruct (tk_approx_phase _ _ _ _ _ _ _ _ _ _ _ _ _) as [i2 k2]. cbn [snd] in H1. apply IH. exact H1.
  - intros E. injection E as _ <-. exact Hp.
Qed.
(** the Tucker benchmark *)
Theorem C62_pp_bench_tucker :
  forall (N : num), ring_laws N -> sqrt_nonneg (N:=N) ->
  forall (LA : lapack N), svd_trunc_shaped (svd LA) ->
  forall (atof : string -> N) (clock : nat -> N) (rank0 same : bool) (env : environment) (fuel base tf rounds : nat)
    (argv : list string) (x : io) (V : tensor N),
  let st := pp_bench_settings atof argv in
  let R := Z.to_nat (s_rank st) in
  let ranks := repeat R (order V) in
  (forall k ls, lens (rng env k ls) = ls /\ wf (rng env k ls)) ->
  String.get 0 (s_model st) = Some "T"%char -> String.get 0 (s_tensor st) <> Some "o"%char ->
  run_tensor env fuel st = Ok V -> wf V -> order V = Z.to_nat (s_dim st) -> order V = 4 \/ 6 <= order V <= 9 -> order V < tf ->
  ranks_ok (lens V) ranks -> s_resprint st <> 0%Z ->
  let W := map (fun i => rng env (base + 2 * i) [nth i (lens V) 0; R]) (seq 0 (order V)) in
  let G := map (fun i => rng env (base + 2 * i + 1) [nth i (lens V) 0; R]) (seq 0 (order V)) in
  pp_bench atof LA clock rank0 env fuel base tf rounds same argv x
  = match tucker_bench clock rank0 st rounds V W (svd LA) ranks x with
    | Some (x1, x2, core) => Ok (Some (mkBench x1 x2 W G core))
    | None => Err LoopFuel
    end.
Proof.
  intros N RL Hsq LA Hsvd atof clk rank0 same env fuel base tf rounds argv x V st R ranks Hrng HT Hno EV HV Hdim Ho Htf HR Hrp W G.
  unfold pp_bench. fold st. unfold pp_bench_main, bench_tensor.
  assert (Hc : Ascii.eqb (char_at (s_tensor st) 0) "o" = false).
  { apply Ascii.eqb_neq. unfold char_at. destruct (String.get 0 (s_tensor st)); [|discriminate]. intros ->. apply Hno. reflexivity. }
  rewrite Hc, EV. cbn [bind]. fold R. rewrite (head_char _ _ HT).
  change (start_W env base R V) with W. change (start_G env base R V) with G. change (start_F R V) with (zmats V R).
  assert (HW : mats_ok V W R) by (apply (start_mats env V R (fun i => base + 2 * i) Hrng)).
  assert (HF : mats_ok V (zmats V R) R) by apply zmats_mats.
  rewrite (copy_back RL V (zmats V R) W R HF HW). cbn [bind]. cbn [Ascii.eqb Bool.eqb].
  assert (H0 : Nat.eqb (order V) 0 = false) by (apply Nat.eqb_neq; lia). rewrite H0, fill_array. cbn [bind]. rewrite <- Hdim, take_repeat by lia. cbn [bind]. fold ranks.
  assert (Hn : forall m, m < order V -> nth m ranks 0 = R) by (intros m Hm; unfold ranks; rewrite (nth_indep _ 0 R) by (rewrite repeat_length; exact Hm); apply nth_repeat).
  assert (Htok : forall D, mats_ok V D R <-> tucker_ok V D ranks).
  { intros D. unfold mats_ok, tucker_ok. split.
    - intros [L H]. split; [exact HV|]. split; [exact L|]. split; [apply repeat_length|]. intros m Hm. rewrite (Hn m Hm). apply H. exact Hm.
    - intros (_ & L & _ & H). split; [exact L|]. intros m Hm. rewrite <- (Hn m Hm). apply H. exact Hm. }
  assert (HWt : tucker_ok V W ranks) by (apply Htok; exact HW).
  unfold tucker_bench. set (tol := nmul (s_tol st) (norm2 V)).
  match goal with |- context [again ?n ?g (zeros ranks, x)] => set (dtr := g) end.
  match goal with |- context [for_ 0 ?n ?f (W, zeros ranks, x)] => 
    assert (HD := for_again f dtr (fun a b => exists D, a = (D, fst b, snd b) /\ mats_ok V D R /\ lens (fst b) = ranks)) end.
  match type of HD with ?A -> _ => assert (HA : A) end.
  { intros _ a [c y] (D & -> & HDm & Hl). cbn [fst snd] in *. unfold dtr. rewrite (copy_back RL V D W R HDm HW). cbn [bind].
    destruct (tdt_algorithm_ok RL LA V clk rank0 tol (s_timelimit st) 1 (s_resprint st) true tf Hrp Htf ranks ltac:(lia) HR Hsq Hsvd c W y HWt Hl) as (E & [GW [GC _]]).
    rewrite E. cbn [bind]. destruct (tdt_algorithm _ _ _ _ _ _ _ _ _ _ _ _ _) as [ret k]. cbn [snd] in *. eexists. split; [reflexivity|].
    exists (kW k). split; [reflexivity|]. split; [apply Htok; exact GW|exact GC]. }
  specialize (HD HA (Z.to_nat (s_maxiter st)) (W, zeros ranks, x) (zeros ranks, x) (ex_intro _ W (conj eq_refl (conj HW eq_refl)))). clear HA.
  destruct (again _ dtr (zeros ranks, x)) as [[c1 x1]|]; [|rewrite HD; reflexivity].
  destruct HD as (a & -> & D1 & -> & HD1 & HL1). cbn [fst snd bind] in *.
  match goal with |- context [again ?n ?g (c1, x1)] => set (ppr := g) end.
  match goal with |- context [for_ 0 ?n ?f (W, c1, x1)] => 
    assert (HD := for_again f ppr (fun a b => exists D, a = (D, fst b, snd b) /\ mats_ok V D R /\ lens (fst b) = ranks)) end.
  match type of HD with ?A -> _ => assert (HA : A) end.
  { intros _ a [c y] (D & -> & HDm & Hl). cbn [fst snd] in *. unfold ppr. rewrite (copy_back RL V D W R HDm HW). cbn [bind].
    rewrite (C59_alsTucker_PP_is_the_algorithm N RL Hsq LA Hsvd clk rank0 V c W ranks) by (auto; lia).
    destruct (tk_algorithm _ _ _ _ _ _ _ _ _ _ _ _ _ _ _) as [[ret k]|] eqn:E; [|reflexivity]. cbn [bind].
    assert (Hgood : tgood V ranks k).
    { unfold tk_algorithm in E. destruct (tk_driver_loop _ _ _ _ _ _ _ _ _ _ _ _ _ _) as [[it q]|] eqn:Ed; [|discriminate]. injection E as _ <-.
      eapply (tloop_good RL LA V ranks); [| | | | | |exact Ed]; auto; [lia|]. split; [exact HWt|]. split; [exact Hl|]. split; [exact Hl|]. cbn [kdW]. apply PTPPDriver.zfacs_ok. }
    destruct Hgood as (GW & GC & _). eexists. split; [reflexivity|]. exists (kW k). split; [reflexivity|]. split; [apply Htok; exact GW|exact GC]. }
  specialize (HD HA (Z.to_nat (s_maxiter st)) (W, c1, x1) (c1, x1) (ex_intro _ W (conj eq_refl (conj HW HL1)))). clear HA.
  destruct (again _ ppr (c1, x1)) as [[c2 x2]|]; [|rewrite HD; reflexivity].
  destruct HD as (a & -> & D2 & -> & HD2 & HL2). reflexivity.
Qed.
Print Assumptions C62_pp_bench_tucker.
