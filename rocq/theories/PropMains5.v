(** C62: which runs of pp_bench fail, -pp, a case *)
From Coq Require Import List ZArith QArith Lia Bool Arith String Ascii Permutation.
From Verif Require Import Base Num Tensor Spec Spec2 Spec3 Spec4 Spec5 Spec7 Spec8 Spec9 Spec12 Spec13 Spec14 Spec15 Spec16 MCommon MCP MTucker MGen MRun MMains PBase PTensor PGen PGen2 PDrivers PTucker PTSweep
  PDriverRef PTDriverRef PMainRef PropALS PropTucker PropTucker2 PropDrivers PropDrivers2 PropMains PropMains2 PropMains3 PropMains4 PropRun PropRun2 PTreeProps PDT PTree PTtm PMat PKhatri PSum PMttkrp PGrad PPPDriver.
Import ListNotations.
Local Close Scope Q_scope.
Local Open Scope string_scope.

(** the Tucker benchmark reads dim ranks, but has only as many as the tensor has modes *)
Theorem C62_tucker_too_few_ranks :
  forall (N : num), ring_laws N ->
  forall (LA : lapack N) (atof : string -> N) (clock : nat -> N) (rank0 same : bool) (env : environment) (fuel base tf rounds : nat)
    (argv : list string) (x : io) (V : tensor N),
  let st := pp_bench_settings atof argv in
  (forall k ls, lens (rng env k ls) = ls /\ wf (rng env k ls)) ->
  String.get 0 (s_model st) = Some "T"%char -> String.get 0 (s_tensor st) <> Some "o"%char ->
  run_tensor env fuel st = Ok V -> order V < Z.to_nat (s_dim st) ->
  pp_bench atof LA clock rank0 env fuel base tf rounds same argv x = Err UB.
Proof.
  intros N RL LA atof clk rank0 same env fuel base tf rounds argv x V st Hrng HT Hno EV Hlt. unfold pp_bench. fold st. unfold pp_bench_main, bench_tensor.
  assert (Hc : Ascii.eqb (char_at (s_tensor st) 0) "o" = false).
  { apply Ascii.eqb_neq. unfold char_at. destruct (String.get 0 (s_tensor st)); [|discriminate]. intros ->. apply Hno. reflexivity. }
  rewrite Hc, EV. cbn [bind]. rewrite (head_char _ _ HT). set (R := Z.to_nat (s_rank st)).
  assert (HW : mats_ok V (start_W env base R V) R) by (apply (start_mats env V R (fun i => base + 2 * i) Hrng)).
  change (start_F R V) with (zmats V R). rewrite (copy_back RL V (zmats V R) _ R (zmats_mats V R) HW). cbn [bind]. cbn [Ascii.eqb Bool.eqb].
  destruct (Nat.eqb (order V) 0); [reflexivity|]. rewrite fill_array. cbn [bind]. rewrite take_short by auto. reflexivity.
Qed.
Print Assumptions C62_tucker_too_few_ranks.
(** pp_bench has no data sets: with a tensor kind o.. the tensor stays empty (no modes, no file is read), whatever the other options.
    With repetitions left to do, and in any case with -model T, that is undefined behaviour. *)
Theorem C62_no_data_sets :
  forall (N : num) (LA : lapack N) (atof : string -> N) (clock : nat -> N) (rank0 same : bool) (env : environment) (fuel base tf rounds : nat)
    (argv : list string) (x : io),
  let st := pp_bench_settings atof argv in
  String.get 0 (s_tensor st) = Some "o"%char ->
  pp_bench atof LA clock rank0 env fuel base tf rounds same argv x
  = if Ascii.eqb (char_at (s_model st) 0) "C" && Z.eqb (s_maxiter st) 0 then Ok (Some (mkBench x x [] [] tnil)) else Err UB.
Proof.
  intros N LA atof clk rank0 same env fuel base tf rounds argv x st Ho. unfold pp_bench. fold st. unfold pp_bench_main, bench_tensor.
  rewrite (head_char _ _ Ho). cbn [Ascii.eqb Bool.eqb bind]. change (order (tnil (N:=N))) with 0. unfold copy_all at 1 2. rewrite !for_empty by lia. cbn [bind].
  assert (HM : char_at (s_model st) 0 = "C"%char \/ char_at (s_model st) 0 = "T"%char).
  { unfold st, pp_bench_settings. cbn [s_model]. unfold opt_str. destruct (getCmdOption argv "-model") as [v|]; [|left; reflexivity].
    destruct (bad_model v) eqn:E; [left; reflexivity|]. unfold bad_model in E. apply andb_false_iff in E.
    rewrite !negb_false_iff, !Ascii.eqb_eq in E. exact E. }
  assert (Hmax : (0 <= s_maxiter st)%Z) by (unfold st, pp_bench_settings; cbn [s_maxiter]; unfold opt_int; destruct (getCmdOption argv "-maxiter") as [v|]; [|lia];
    destruct (neg (atoi v)) eqn:E; [lia|apply Z.ltb_ge in E; exact E]).
  destruct HM as [-> | ->]; cbn [Ascii.eqb Bool.eqb andb].
  - destruct (Z.eqb_spec (s_maxiter st) 0) as [E|E].
    + rewrite E. change (Z.to_nat 0) with 0. rewrite !for_empty by lia. reflexivity.
    + destruct (Z.to_nat (s_maxiter st)) as [|n] eqn:En; [lia|]. unfold for_. cbn [Nat.sub loop]. reflexivity.
  - reflexivity.
Qed.
Print Assumptions C62_no_data_sets.
(** so -model T never works with the default tensor p, for any even -dim from 4 to 30 *)
Theorem C62_tucker_default_tensor :
  forall (N : num), ring_laws N ->
  forall (LA : lapack N) (atof : string -> N) (clock : nat -> N) (rank0 same : bool) (env : environment) (fuel base tf rounds d : nat)
    (argv : list string) (x : io),
  let st := pp_bench_settings atof argv in
  (forall k ls, lens (rng env k ls) = ls /\ wf (rng env k ls)) -> (forall T, Permutation (dist env T) (all_pairs T)) ->
  String.get 0 (s_model st) = Some "T"%char -> s_tensor st = "p" -> s_dim st = Z.of_nat (2 * d) -> 2 <= d <= 15 -> (1 <= s_size st)%Z ->
  pp_bench atof LA clock rank0 env fuel base tf rounds same argv x = Err UB.
Proof.
  intros N RL LA atof clk rank0 same env fuel base tf rounds d argv x st Hrng Hdist HT Hp Hd Hr Hs.
  assert (E := tensor_p_value RL env fuel st d Hdist ltac:(rewrite Hp; reflexivity) ltac:(rewrite Hp; reflexivity) Hd Hr Hs).
  refine (C62_tucker_too_few_ranks N RL LA atof clk rank0 same env fuel base tf rounds argv x _ Hrng HT _ E _).
  - fold st. rewrite Hp. discriminate.
  - fold st. rewrite Hd, Nat2Z.id. unfold order. cbn [lens]. rewrite repeat_length. lia.
Qed.
Print Assumptions C62_tucker_default_tensor.
(** ./pp_bench alone: 5000 repetitions of each kind on the folded 100x100x100x100 Laplacian with 5 columns *)
Theorem C62_default_run :
  forall (N : num), ring_laws N ->
  forall (LA : lapack N), svd_shaped (svd LA) ->
  forall (atof : string -> N) (clock : nat -> N) (rank0 same : bool) (env : environment) (fuel base tf rounds : nat) (x : io),
  (forall k ls, lens (rng env k ls) = ls /\ wf (rng env k ls)) -> (forall T, Permutation (dist env T) (all_pairs T)) ->
  (forall y : N, neqb y n0 = true -> y = n0) -> (forall y : N, neqb y n1 = true -> y = n1) -> 4 < tf -> 2 <= rounds ->
  exists r dts pps, pp_bench atof LA clock rank0 env fuel base tf rounds same ["./pp_bench"] x = Ok (Some r) /\
    rows (b_pp r) = (rows x ++ map (RowDT (N:=N)) dts ++ map (fun ab => RowPP (N:=N) (fst ab) (snd ab)) pps)%list /\
    (Z.of_nat (List.length dts) <= 5000)%Z /\ (Z.of_nat (List.length pps) <= 5000)%Z.
Proof.
  intros N RL LA Hsh atof clk rank0 same env fuel base tf rounds x Hrng Hdist Hz H1 Htf Hrd.
  assert (E := tensor_p_value RL env fuel (pp_bench_settings atof ["./pp_bench"]) 4 Hdist eq_refl eq_refl eq_refl ltac:(lia) ltac:(cbn; lia)).
  assert (H := C62_cp_log N RL LA Hsh atof clk rank0 same env fuel base tf rounds ["./pp_bench"] x _ Hrng eq_refl ltac:(discriminate) E (folded_wf (N:=N) 4 10) (or_introl eq_refl) Htf Hz H1 ltac:(discriminate) Hrd).
  cbv zeta in H. destruct H as (r & dts & pps & H & _ & R1 & R2 & L1 & L2 & _). exists r, dts, pps. split; [exact H|]. split; [rewrite R2, R1, <- app_assoc; reflexivity|].
  change (s_maxiter (pp_bench_settings atof ["./pp_bench"])) with 5000%Z in L1, L2. lia.
Qed.
Print Assumptions C62_default_run.

(** -pp: any value may be appended to a command line without changing the benchmark, unless the last argument is an option that takes it as its value *)
Lemma opt_app argv o v : String.eqb "-pp" o = false -> String.eqb (last argv "") o = false -> getCmdOption (argv ++ ["-pp"; v])%list o = getCmdOption argv o.
Proof.
  intros Hp. induction argv as [|a [|b l] IH]; intros Hl.
  - cbn [app getCmdOption]. rewrite Hp. destruct (String.eqb v o); reflexivity.
  - cbn [app getCmdOption last] in *. rewrite Hl, Hp. destruct (String.eqb v o); reflexivity.
  - cbn [app getCmdOption last hd_error] in *. destruct (String.eqb a o); [reflexivity|]. apply IH. exact Hl.
Qed.
Definition set_pp {N : num} (st : settings (N := N)) (v : Z) : settings (N := N) :=
  mkSettings (s_model st) (s_tensor st) v (s_percentage st) (s_dim st) (s_maxiter st) (s_timelimit st) (s_size st) (s_rank st) (s_updaterank st) (s_issparse st) (s_resprint st)
    (s_randomsvd st) (s_tol st) (s_pp_res_tol st) (s_lambda st) (s_magni st) (s_filename st) (s_tensorfile st) (s_colmin st) (s_colmax st) (s_rationoise st).
Theorem C62_pp_ignored :
  forall (N : num) (LA : lapack N) (atof : string -> N) (clock : nat -> N) (rank0 same : bool) (env : environment) (fuel base tf rounds : nat)
    (argv : list string) (v : string) (x : io),
  String.get 0 (last argv "") <> Some "-"%char ->
  pp_bench atof LA clock rank0 env fuel base tf rounds same (argv ++ ["-pp"; v]) x = pp_bench atof LA clock rank0 env fuel base tf rounds same argv x.
Proof.
  intros N LA atof clk rank0 same env fuel base tf rounds argv v x Hl. unfold pp_bench.
  assert (Hn : forall o, String.get 0 o = Some "-"%char -> String.eqb (last argv "") o = false).
  { intros o Ho. apply String.eqb_neq. intros E. rewrite E in Hl. contradiction. }
  assert (E : pp_bench_settings atof (argv ++ ["-pp"; v])%list = set_pp (pp_bench_settings atof argv) (s_pp (pp_bench_settings atof (argv ++ ["-pp"; v])%list))).
  { unfold set_pp, pp_bench_settings at 1. cbn [s_pp]. unfold opt_int, opt_dbl, opt_str. 
    repeat match goal with |- context [getCmdOption (argv ++ _)%list ?o] => first [constr_eq o "-pp"; fail 1 | rewrite (opt_app argv o v eq_refl (Hn o eq_refl))] end. reflexivity. }
  rewrite E. reflexivity.
Qed.
Print Assumptions C62_pp_ignored.
(** concrete benchmarks over the integers: a random 2x2x2x2 tensor, rank 1, two repetitions; tolerance 0, and a tolerance above the start gradient *)
Definition brun (LA : lapack Znum) (args : list string) : res (option (bench_result (N:=Znum))) :=
  pp_bench (N:=Znum) aZ LA (fun n => Z.of_nat n : Znum) true eZ 5 8 9 2 true ("./pp_bench" :: "-tensor" :: "r" :: "-size" :: "2" :: "-rank" :: "1" :: args) (mkIo (N:=Znum) 0 0%Z []).
Definition bres (r : res (option (bench_result (N:=Znum)))) : string * list (row (N:=Znum)) * list (row (N:=Znum)) * list (list Z) :=
  match r with
  | Ok (Some b) => ("done", rows (b_dt b), rows (b_pp b), map data (b_G b))
  | Ok None => ("nothing", [], [], [])
  | Err _ => ("error", [], [], [])
  end%list.
Definition bst : settings (N:=Znum) :=
  pp_bench_settings (N:=Znum) aZ ["./pp_bench"; "-tensor"; "r"; "-size"; "2"; "-rank"; "1"; "-dim"; "4"; "-maxiter"; "2"; "-resprint"; "1"; "-tol"; "0"].
Lemma bst_val : bst = mkSettings (N:=Znum) "CP" "r" 0 1%Z 4 2 5000%Z 2 1 0 0 1 0 0%Z 0%Z 0%Z 1%Z "out.csv" "" 0%Z 0%Z 0%Z.
Proof. vm_compute. reflexivity. Qed.
Theorem C62_case :
  let args := ["-dim"; "4"; "-maxiter"; "2"; "-resprint"; "1"] in
  let st := bst in
  let start := [[0; 1]; [2; 0]; [1; 2]; [0; 1]]%Z in
  (* the hypotheses of the theorems, including those under which every repetition writes its row *)
  svd_shaped (svd LAz) /\ svd_trunc_shaped (svd LAt) /\ (forall k ls, lens (rng eZ k ls) = ls /\ wf (rng eZ k ls)) /\
  String.get 0 (s_model st) = Some "C"%char /\ String.get 0 (s_tensor st) <> Some "o"%char /\
  (exists V, run_tensor eZ 5 st = Ok V /\ wf V /\ order V = 4 /\ order V = Z.to_nat (s_dim st) /\ ranks_ok (lens V) (repeat (Z.to_nat (s_rank st)) (order V)) /\
     (forall M : list (tensor Znum), nltb (grad_norm M) (nmul (s_tol st) (norm2 V)) = false) /\ nltb (nmul (s_tol st) (norm2 V)) (nlit 10) = true) /\ s_resprint st <> 0%Z /\
  (forall c, nltb (n:=Znum) (s_timelimit st) (nsub (Z.of_nat (c + 4) : Znum) (nadd (Z.of_nat c : Znum) (nsub (Z.of_nat (c + 2) : Znum) (Z.of_nat (c + 1) : Znum)))) = false) /\
  (forall c, nltb (n:=Znum) (s_timelimit st) (nsub (Z.of_nat (c + 1) : Znum) (Z.of_nat c : Znum)) = false) /\
  (* the logs *)
  bres (brun LAz (args ++ ["-tol"; "0"])) = ("done", [RowDT (N:=Znum) 5%Z; RowDT (N:=Znum) 5%Z], [RowDT (N:=Znum) 5%Z; RowDT (N:=Znum) 5%Z; RowPP (N:=Znum) 5%Z 3%Z; RowPP (N:=Znum) 5%Z 3%Z], [[0; 0]; [0; 0]; [0; 0]; [0; 0]]%Z) /\
  bres (brun LAz (args ++ ["-tol"; "1"])) = ("done", [], [], start) /\
  bres (brun LAt (args ++ ["-tol"; "0"; "-model"; "T"])) = ("done", [RowDT (N:=Znum) 2%Z; RowDT (N:=Znum) 2%Z], [RowDT (N:=Znum) 2%Z; RowDT (N:=Znum) 2%Z; RowPP (N:=Znum) 5%Z 3%Z; RowPP (N:=Znum) 5%Z 3%Z], start) /\
  bres (brun LAt (args ++ ["-tol"; "1"; "-model"; "T"])) = ("done", [RowDT (N:=Znum) 2%Z; RowDT (N:=Znum) 2%Z], [RowDT (N:=Znum) 2%Z; RowDT (N:=Znum) 2%Z], start) /\
  bres (pp_bench (N:=Znum) aZ LAt (fun n => Z.of_nat n : Znum) true eZ 5 8 9 2 true ["./pp_bench"; "-model"; "T"; "-dim"; "4"; "-size"; "2"] (mkIo (N:=Znum) 0 0%Z [])) = ("error", [], [], []).
Proof.
  cbv zeta. rewrite bst_val. cbn [s_model s_tensor s_resprint s_timelimit s_tol s_rank s_dim].
  split; [exact LAz_shaped|]. split; [exact LAt_shaped|]. split; [intros k ls; split; [reflexivity|apply tabulate_wf]|]. split; [reflexivity|]. split; [discriminate|].
  split. { exists (mkT (N:=Znum) [2; 2; 2; 2] [0; 0; 0; 0; 0; 0; 0; 0; 0; 2; 0; 4; 0; 0; 0; 0]%Z). split; [vm_compute; reflexivity|]. split; [reflexivity|]. split; [reflexivity|]. split; [reflexivity|].
    split; [split; [reflexivity|intros i Hi; do 4 (destruct i; [cbn; lia|]); exfalso; cbn in Hi; lia]|].
    split; [|reflexivity]. intros M. apply Z.ltb_ge. cbn [nmul Znum]. rewrite Z.mul_0_l. unfold grad_norm. apply Z.sqrt_nonneg. }
  split; [discriminate|]. split; [intros c; apply Z.ltb_ge; cbn [nsub nadd Znum]; lia|].
  split; [intros c; apply Z.ltb_ge; cbn [nsub nadd Znum]; lia|].
  do 4 (split; [vm_compute; reflexivity|]). vm_compute. reflexivity.
Qed.
Print Assumptions C62_case.
