(** C92: the program pp_bench never fails and never changes a shape, whatever the numbers *)
From Coq Require Import String Ascii.
From Coq Require Import List ZArith QArith Lia Bool Arith SpecFloat Permutation.
From Verif Require Import Base Num NumF Tensor Spec Spec2 Spec7 Spec15 Spec23 MCommon MCP MTucker MGen MRun MMains PBase PTensor PMat PDrivers PPPDriver PPar PPar2 PPar3 PPar4 PPar5 PPar6
  PPar7 PPar8 PPar9 PPar10 PPar11 PPar12 PBuildV PTtm PGen PGen2 PropNan PropAny PropAny2 PropAny3 PropMains PropMains2 PropMains3.
Import ListNotations.
Local Close Scope Q_scope.
Local Open Scope string_scope.

(** a bounded loop whose rounds either keep the invariant or are still running *)
Lemma for_run {A} (P : A -> Prop) body e lo hi s : (forall j a, P a -> (exists b, body j a = Ok b /\ P b) \/ body j a = Err e) -> P s ->
  (exists b, for_ lo hi body s = Ok b /\ P b) \/ for_ lo hi body s = Err e.
Proof.
  intros H. unfold for_. generalize (hi - lo) as n. intros n. revert lo s. induction n; intros lo s Hs; cbn [loop]; [left; eauto|].
  destruct (H lo s Hs) as [(b & E & Hb)|E]; rewrite E; cbn [bind]; [apply IHn; exact Hb|right; reflexivity].
Qed.
Lemma copy_any {N : num} (V : tensor N) (D W : list (tensor N)) R : mats_ok V D R -> mats_ok V W R -> exists D', copy_all (order V) D W = Ok D' /\ mats_ok V D' R.
Proof.
  intros [LD HD] [LW HW]. unfold copy_all.
  destruct (for_inv (fun j D' => List.length D' = order V /\ forall m, m < order V -> is_mat (fac D' m) (nth m (lens V) 0) R)
    (fun j D => Dj <- lget D j ;; Wj <- lget W j ;; T <- assign false Dj sij [prodt [(Wj, sij)]] ;; lput D j T) 0 (order V) D) as (D' & E & H); [lia|auto| |exists D'; auto].
  intros j D' Hj (L & HL).
  rewrite (lget_ok D' j tnil) by lia. cbn [bind]. rewrite (lget_ok W j tnil) by lia. cbn [bind]. fold (fac D' j) (fac W j).
  assert (Hd := HL j ltac:(lia)). assert (Hw := HW j ltac:(lia)).
  assert (HU := assign_copy Unum_ring (cp (fac D' j)) (cp (fac W j)) (nth j (lens V) 0) R (proj1 Hd) (conj (proj1 Hw) (proj2 (proj2 (cp_sim _ (proj2 Hw)))))).
  match goal with |- context [assign ?p1 ?p2 ?p3 ?p4] => match type of HU with ?a = _ => assert (HS : osim tsw (assign p1 p2 p3 p4) a) end end.
  { apply assign_sim; [exact (proj1 (cp_sim _ (proj2 Hd)))|]. repeat (apply Forall2_cons || apply Forall2_nil); unfold termsim; cbn [facs prodt]; repeat (apply Forall2_cons || apply Forall2_nil); split; reflexivity. }
  destruct (osim_run _ _ _ _ HS HU) as (T & ET & H1 & H2 & _). rewrite ET. cbn [bind]. rewrite lput_ok by lia. eexists. split; [reflexivity|].
  split; [rewrite lset_length; exact L|]. intros m Hm. unfold fac. destruct (Nat.eq_dec m j) as [->|Hn]; [rewrite lset_same by lia|rewrite lset_other by auto; apply HL; exact Hm].
  split; [rewrite H1; apply Hw|exact H2].
Qed.

Section C92.
Context {N : num} (LA : lapack N) (atof : string -> N) (clock : nat -> N) (rank0 same : bool) (env : environment (N := N)) (fuel base tf rounds : nat).
Context (argv : list string) (x : io (N := N)).
Notation st := (pp_bench_settings atof argv).
Notation R := (Z.to_nat (s_rank st)).
Hypothesis Hrng : forall k ls, lens (rng env k ls) = ls /\ wf (rng env k ls).

Lemma not_o : String.get 0 (s_tensor st) <> Some "o"%char -> Ascii.eqb (char_at (s_tensor st) 0) "o" = false.
Proof. intros Hno. apply Ascii.eqb_neq. unfold char_at. destruct (String.get 0 (s_tensor st)); [|discriminate]. intros ->. apply Hno. reflexivity. Qed.

(** LoopFuel: a loop of pairwise perturbation is still running *)
Theorem C92_pp_bench_cp : forall V : tensor N, svd_shaped (svd LA) ->
  String.get 0 (s_model st) = Some "C"%char -> String.get 0 (s_tensor st) <> Some "o"%char ->
  run_tensor env fuel st = Ok V -> wf V -> order V = 4 \/ 6 <= order V <= 9 -> order V < tf -> s_resprint st <> 0%Z ->
  let W := map (fun i => rng env (base + 2 * i) [nth i (lens V) 0; R]) (seq 0 (order V)) in
  let run := pp_bench atof LA clock rank0 env fuel base tf rounds same argv x in
  run = Err LoopFuel \/
  exists r, run = Ok (Some r) /\ b_W r = W /\ mats_ok V (b_G r) R.
Proof.
  intros V Hsh HC Hno EV HV Ho Htf Hrp W run. subst run. unfold pp_bench, pp_bench_main, bench_tensor.
  rewrite (not_o Hno), EV. cbn [bind]. rewrite (head_char _ _ HC).
  set (G := start_G env base R V). change (start_W env base R V) with W. change (start_F R V) with (zmats V R).
  assert (HW : mats_ok V W R) by (apply (start_mats env V R (fun i => base + 2 * i) Hrng)).
  assert (HG : mats_ok V G R) by (apply (start_mats env V R (fun i => base + 2 * i + 1) Hrng)).
  assert (HF : mats_ok V (zmats V R) R) by apply zmats_mats.
  destruct (copy_any V (zmats V R) W R HF HW) as (D0 & E0 & HD0). rewrite E0. cbn [bind Ascii.eqb Bool.eqb].
  set (tol := nmul (s_tol st) (norm2 V)).
  set (P := fun s : list (tensor N) * list (tensor N) * io (N := N) => mats_ok V (fst (fst s)) R /\ mats_ok V (snd (fst s)) R).
  match goal with |- context [for_ 0 ?n ?f (D0, G, x)] => destruct (for_run P f LoopFuel 0 n (D0, G, x)) as [([[D1 G1] x1] & E1 & H1a & H1b)|E1] end.
  - intros _ [[D g] y] [HDa HDb]. cbn [fst snd] in *. left.
    destruct (C89_dimension_tree LA Hsh clock rank0 (s_timelimit st) V R D g (zmats V R) tol 1 (s_lambda st) (s_resprint st) true tf y) as (ret & s & k & E & (_ & K1) & K2 & _); auto; [lia|split; auto|lia|].
    rewrite E. cbn [bind]. destruct (copy_any V (dtW s) W R K1 HW) as (D' & E' & HD'). rewrite E'. cbn [bind]. eexists. split; [reflexivity|]. split; assumption.
  - split; [exact HD0|exact HG].
  - rewrite E1. cbn [bind fst snd] in *.
    match goal with |- context [for_ 0 ?n ?f (D0, G1, x1)] => destruct (for_run P f LoopFuel 0 n (D0, G1, x1)) as [([[D2 G2] x2] & E2 & H2a & H2b)|E2] end.
    + intros _ [[D g] y] [HDa HDb]. cbn [fst snd] in *.
      destruct (C89_pairwise_perturbation LA Hsh clock rank0 (s_timelimit st) V R rounds tf same D g tol (s_pp_res_tol st) 1 (s_lambda st) (s_magni st) (s_resprint st) true y)
        as [E|(ret & p & E & (_ & K1) & K2 & _)]; auto; [lia|split; auto| |]; rewrite E; cbn [bind]; [right; reflexivity|left].
      destruct (copy_any V (pW p) W R K1 HW) as (D' & E' & HD'). rewrite E'. cbn [bind]. eexists. split; [reflexivity|]. split; assumption.
    + split; [exact HD0|exact H1b].
    + right. rewrite E2. cbn [bind]. eexists. split; [reflexivity|]. split; [reflexivity|exact H2b].
    + left. rewrite E2. reflexivity.
  - left. rewrite E1. reflexivity.
Qed.

Theorem C92_pp_bench_tucker : forall V : tensor N, svd_trunc_shaped (svd LA) ->
  String.get 0 (s_model st) = Some "T"%char -> String.get 0 (s_tensor st) <> Some "o"%char ->
  run_tensor env fuel st = Ok V -> wf V -> order V = Z.to_nat (s_dim st) -> order V = 4 \/ 6 <= order V <= 9 -> order V < tf ->
  ranks_ok (lens V) (repeat R (order V)) -> s_resprint st <> 0%Z ->
  let W := map (fun i => rng env (base + 2 * i) [nth i (lens V) 0; R]) (seq 0 (order V)) in
  let run := pp_bench atof LA clock rank0 env fuel base tf rounds same argv x in
  run = Err LoopFuel \/
  exists r, run = Ok (Some r) /\ b_W r = W /\ lens (b_core r) = repeat R (order V).
Proof.
  intros V Hsvd HT Hno EV HV Hdim Ho Htf HR Hrp W run. subst run. unfold pp_bench, pp_bench_main, bench_tensor.
  rewrite (not_o Hno), EV. cbn [bind]. rewrite (head_char _ _ HT).
  change (start_W env base R V) with W. change (start_F R V) with (zmats V R).
  assert (HW : mats_ok V W R) by (apply (start_mats env V R (fun i => base + 2 * i) Hrng)).
  assert (HF : mats_ok V (zmats V R) R) by apply zmats_mats.
  destruct (copy_any V (zmats V R) W R HF HW) as (D0 & E0 & HD0). rewrite E0. cbn [bind Ascii.eqb Bool.eqb].
  assert (H0 : Nat.eqb (order V) 0 = false) by (apply Nat.eqb_neq; lia). rewrite H0, fill_array. cbn [bind]. rewrite <- Hdim, take_repeat by lia. cbn [bind]. set (ranks := repeat R (order V)) in *.
  assert (Hn : forall m, m < order V -> nth m ranks 0 = R) by (intros m Hm; unfold ranks; rewrite (nth_indep _ 0 R) by (rewrite repeat_length; exact Hm); apply nth_repeat).
  assert (Htok : forall D, mats_ok V D R <-> tucker_ok V D ranks).
  { intros D. unfold mats_ok, tucker_ok. split.
    - intros [L H]. split; [exact HV|]. split; [exact L|]. split; [apply repeat_length|]. intros m Hm. rewrite (Hn m Hm). apply H. exact Hm.
    - intros (_ & L & _ & H). split; [exact L|]. intros m Hm. rewrite <- (Hn m Hm). apply H. exact Hm. }
  set (tol := nmul (s_tol st) (norm2 V)).
  set (P := fun s : list (tensor N) * tensor N * io (N := N) => mats_ok V (fst (fst s)) R /\ lens (snd (fst s)) = ranks).
  match goal with |- context [for_ 0 ?n ?f (D0, zeros ranks, x)] => destruct (for_run P f LoopFuel 0 n (D0, zeros ranks, x)) as [([[D1 c1] x1] & E1 & H1a & H1b)|E1] end.
  - intros _ [[D c] y] [HDa HDb]. cbn [fst snd] in *. left. destruct (copy_any V D W R HDa HW) as (D' & E' & HD'). rewrite E'. cbn [bind].
    destruct (C90_dimension_tree LA Hsvd clock rank0 (s_timelimit st) V ranks HR tf c D' tol 1 (s_resprint st) true y) as (ret & s & k & E & K1 & K2 & _); auto; [lia|apply Htok; exact HD'|lia|].
    rewrite E. cbn [bind]. eexists. split; [reflexivity|]. split; [apply Htok; exact K1|exact K2].
  - split; [exact HD0|reflexivity].
  - rewrite E1. cbn [bind fst snd] in *.
    match goal with |- context [for_ 0 ?n ?f (D0, c1, x1)] => destruct (for_run P f LoopFuel 0 n (D0, c1, x1)) as [([[D2 c2] x2] & E2 & H2a & H2b)|E2] end.
    + intros _ [[D c] y] [HDa HDb]. cbn [fst snd] in *. destruct (copy_any V D W R HDa HW) as (D' & E' & HD'). rewrite E'. cbn [bind].
      destruct (C90_pairwise_perturbation LA Hsvd clock rank0 (s_timelimit st) V ranks HR rounds tf c D' tol (s_pp_res_tol st) 1 (s_resprint st) true y)
        as [E|(ret & p & E & K1 & K2 & _)]; auto; [lia|apply Htok; exact HD'| |]; rewrite E; cbn [bind]; [right; reflexivity|left].
      eexists. split; [reflexivity|]. split; [apply Htok; exact K1|exact K2].
    + split; [exact HD0|exact H1b].
    + right. rewrite E2. cbn [bind]. eexists. split; [reflexivity|]. split; [reflexivity|exact H2b].
    + left. rewrite E2. reflexivity.
  - left. rewrite E1. reflexivity.
Qed.

(** the whole command line, with -tensor p, c or r *)
Theorem C92_command_line : (forall T, Permutation (dist env T) (all_pairs T)) ->
  svd_shaped (svd LA) -> svd_trunc_shaped (svd LA) -> makeable st ->
  String.get 0 (s_model st) = Some "C"%char \/
    String.get 0 (s_model st) = Some "T"%char /\ List.length (made_shape st) = Z.to_nat (s_dim st) /\ 1 <= R ->
  List.length (made_shape st) = 4 \/ 6 <= List.length (made_shape st) <= 9 -> List.length (made_shape st) < tf -> s_resprint st <> 0%Z ->
  let run := pp_bench atof LA clock rank0 env fuel base tf rounds same argv x in
  run = Err LoopFuel \/ exists r, run = Ok (Some r).
Proof.
  intros Hdist HA HB Hm Hmod Ho Htf Hrp run.
  assert (Hno : String.get 0 (s_tensor st) <> Some "o"%char).
  { unfold makeable in Hm. intros E. rewrite E in Hm. exact Hm. }
  destruct (C91_tensor env fuel Hrng Hdist st Hm) as [[_ E]|(V & E & HL & HV)].
  - left. subst run. unfold pp_bench, pp_bench_main, bench_tensor. rewrite (not_o Hno), E. reflexivity.
  - rewrite <- HL in Ho, Htf, Hmod. destruct Hmod as [HC|(HT & Hdim & HR)].
    + destruct (C92_pp_bench_cp V HA HC Hno E HV Ho Htf Hrp) as [Er|(r & Er & _)]; [left; exact Er|right; exists r; exact Er].
    + assert (HRs : ranks_ok (lens V) (repeat R (order V))).
      { split; [apply repeat_length|]. intros m Hmm. rewrite (nth_indep (repeat R _) 0 R) by (rewrite repeat_length; exact Hmm). rewrite nth_repeat. split; [exact HR|].
        destruct (pp_bench_in_range atof argv) as (_ & _ & Hs & Hr & _). revert Hmm. rewrite HL. clear - Hs Hr HR. unfold made_shape. set (a := Z.to_nat (s_size st)). assert (Ha : R <= a) by (unfold a; lia).
        destruct (_ && _); rewrite repeat_length; intros Hmm.
        - rewrite (nth_indep _ 0 (a * a)) by (rewrite repeat_length; exact Hmm). rewrite nth_repeat. nia.
        - rewrite (nth_indep _ 0 a) by (rewrite repeat_length; exact Hmm). rewrite nth_repeat. exact Ha. }
      destruct (C92_pp_bench_tucker V HB HT Hno E HV Hdim Ho Htf HRs Hrp) as [Er|(r & Er & _)]; [left; exact Er|right; exists r; exact Er].
Qed.
End C92.

(** concrete command lines over binary64 with a random generator that returns NaN: the hypotheses are met *)
Definition cd_cp : list string := ["./pp_bench"; "-tensor"; "p"; "-dim"; "8"; "-size"; "3"; "-rank"; "2"; "-maxiter"; "2"; "-resprint"; "2"].
Definition cd_tk : list string := ["./pp_bench"; "-tensor"; "r"; "-dim"; "6"; "-size"; "3"; "-rank"; "2"; "-model"; "T"; "-maxiter"; "2"].
Definition cd_svd (S : tensor cn_N) (k : nat) : tensor cn_N * tensor cn_N * tensor cn_N :=
  ((@mkT cn_N [nrow S; k] (repeat S754_nan (nrow S * (k * 1))), zeros [k]), zeros [k; k]).
Definition cd_LA : lapack cn_N := @mkLapack cn_N cd_svd (fun A => A) (fun A _ _ _ _ => A) (fun A => A) (fun _ l => zeros l).
Theorem C92_case : svd_shaped (svd cd_LA) /\ svd_trunc_shaped (svd cd_LA) /\
  (forall k ls, lens (rng cc_env k ls) = ls /\ wf (rng cc_env k ls)) /\ (forall T, Permutation (dist cc_env T) (all_pairs T)) /\
  (forall atof, let st := pp_bench_settings (N := cn_N) atof cd_cp in makeable st /\ made_shape st = repeat 9 4 /\ s_maxiter st = 2%Z) /\
  (forall atof, let st := pp_bench_settings (N := cn_N) atof cd_tk in makeable st /\ made_shape st = repeat 3 6 /\ s_maxiter st = 2%Z) /\
  forall argv, argv = cd_cp \/ argv = cd_tk -> forall atof x, let run := pp_bench (N := cn_N) atof cd_LA cn_clk true cc_env 5 9 10 6 true argv x in
     run = Err LoopFuel \/ exists r, run = Ok (Some r).
Proof.
  assert (Hw : forall r c, wf (@mkT cn_N [r; c] (repeat S754_nan (r * (c * 1))))).
  { intros r c. unfold wf. cbn [lens data]. rewrite repeat_length. reflexivity. }
  assert (HB : svd_trunc_shaped (svd cd_LA)).
  { intros S n k HS Hk. cbn [svd cd_LA]. unfold cd_svd. assert (E : nrow S = n) by (unfold nrow; rewrite (proj1 HS); reflexivity). rewrite E.
    split; [split; [reflexivity|apply Hw]|split; [reflexivity|apply (@tabulate_wf cn_N)]]. }
  assert (HA : svd_shaped (svd cd_LA)).
  { intros S k HS. cbn [svd cd_LA]. unfold cd_svd. assert (E : nrow S = k) by (unfold nrow; rewrite (proj1 HS); reflexivity). rewrite E.
    split; [split; [reflexivity|apply Hw]|]. repeat split; try apply (@tabulate_wf cn_N). }
  assert (HR : forall k ls, lens (rng cc_env k ls) = ls /\ wf (rng cc_env k ls)) by (intros k ls; split; [reflexivity|apply (@tabulate_wf cn_N)]).
  assert (HD : forall T, Permutation (dist cc_env T) (all_pairs T)) by (intros T; apply Permutation_refl).
  assert (M1 : forall atof, makeable (pp_bench_settings (N := cn_N) atof cd_cp)).
  { intros atof. split; [discriminate|]. exists 4. split; [reflexivity|lia]. }
  assert (M2 : forall atof, makeable (pp_bench_settings (N := cn_N) atof cd_tk)).
  { intros atof. right. split; discriminate. }
  assert (S1 : forall atof, made_shape (pp_bench_settings (N := cn_N) atof cd_cp) = repeat 9 4) by reflexivity.
  assert (S2 : forall atof, made_shape (pp_bench_settings (N := cn_N) atof cd_tk) = repeat 3 6) by reflexivity.
  split; [exact HA|]. split; [exact HB|]. split; [exact HR|]. split; [exact HD|].
  split; [intros atof; split; [apply M1|split; [apply S1|reflexivity]]|].
  split; [intros atof; split; [apply M2|split; [apply S2|reflexivity]]|].
  intros argv [->| ->] atof x.
  - apply (C92_command_line cd_LA atof cn_clk true true cc_env 5 9 10 6 cd_cp x HR HD HA HB (M1 atof)); [left; reflexivity| | |discriminate]; rewrite S1; cbn; lia.
  - apply (C92_command_line cd_LA atof cn_clk true true cc_env 5 9 10 6 cd_tk x HR HD HA HB (M2 atof)); [right; split; [reflexivity|]; rewrite S2; split; [reflexivity|]| | |discriminate].
    + change (1 <= 2). lia.
    + rewrite S2; cbn; lia.
    + rewrite S2; cbn; lia.
Qed.
