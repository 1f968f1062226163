(** C61: the program test_ALS *)
From Coq Require Import List ZArith QArith Lia Bool Arith String Ascii Permutation.
From Verif Require Import Base Num Tensor Spec Spec2 Spec3 Spec4 Spec5 Spec7 Spec8 Spec9 Spec12 Spec13 Spec14 Spec15 MCommon MCP MTucker MGen MRun MMains PBase PTensor PGen PGen2 PDrivers PTucker PTSweep PMainRef PropALS
  PropTucker PropTucker2 PropDrivers PropDrivers2 PropMains PropRun PropRun2 PTreeProps PDT PTree PTtm PMat PKhatri PSum PMttkrp PGrad.
Import ListNotations.
Local Close Scope Q_scope.
Local Open Scope string_scope.

Lemma start_mats {N : num} (env : environment (N := N)) V R (f : nat -> nat) : (forall k ls, lens (rng env k ls) = ls /\ wf (rng env k ls)) ->
  mats_ok V (map (fun i => rng env (f i) [nth i (lens V) 0; R]) (seq 0 (order V))) R.
Proof.
  intros Hr. split; [rewrite map_length, seq_length; reflexivity|]. intros m Hm. unfold fac. rewrite (nth_map_lt _ _ _ 0%nat) by (rewrite seq_length; auto).
  rewrite nth_seq by auto. apply Hr.
Qed.
Lemma head_char t c : String.get 0 t = Some c -> char_at t 0 = c.
Proof. intros H. unfold char_at. rewrite H. reflexivity. Qed.

Lemma opt_range (argv : list string) o (bad : Z -> bool) d (P : Z -> Prop) : (forall z, bad z = false -> P z) -> P d -> P (opt_int argv o bad d).
Proof. intros H Hd. unfold opt_int. destruct (getCmdOption argv o) as [v|]; [|exact Hd]. destruct (bad (atoi v)) eqn:E; auto. Qed.
Lemma test_ALS_in_range {N : num} (atof : string -> N) argv : let st := test_ALS_settings atof argv in
  (0 <= s_pp st <= 2 /\ 0 <= s_dim st /\ 0 <= s_maxiter st /\ 0 <= s_size st /\ 0 <= s_rank st <= s_size st /\ 0 <= s_resprint st)%Z.
Proof.
  cbv zeta. unfold test_ALS_settings. cbn [s_pp s_dim s_maxiter s_size s_rank s_resprint].
  assert (Hn : forall o d, (0 <= d -> 0 <= opt_int argv o neg d)%Z).
  { intros o d Hd. apply (opt_range argv o neg d (fun z => 0 <= z)%Z); [|exact Hd]. intros z Hz. unfold neg in Hz. apply Z.ltb_ge in Hz. exact Hz. }
  assert (Hs : (0 <= opt_int argv "-size" neg 10)%Z) by (apply Hn; lia).
  split. { apply (opt_range argv _ _ _ (fun z => 0 <= z <= 2)%Z); [|lia]. intros z Hz. apply orb_false_iff in Hz as [H1 H2]. apply Z.ltb_ge in H1, H2. lia. }
  split; [apply Hn; lia|]. split; [apply Hn; lia|]. split; [exact Hs|]. split; [|apply Hn; lia].
  set (s := opt_int argv "-size" neg 10) in *. apply (opt_range argv _ _ _ (fun z => 0 <= z <= s)%Z).
  - intros z Hz. apply orb_false_iff in Hz as [H1 H2]. apply Z.ltb_ge in H1, H2. lia.
  - rewrite Z.quot_div_nonneg by lia. split; [apply Z.div_pos; lia|]. apply Z.div_le_upper_bound; lia.
Qed.

(** the CP model.  V: the tensor that was generated or read (C53 says which); rounds bounds the outer loop of -pp 1 and -pp 2 *)
Theorem C61_test_ALS_cp :
  forall (N : num), ring_laws N ->
  forall (LA : lapack N), svd_shaped (svd LA) ->
  forall (atof : string -> N) (clock : nat -> N) (rank0 same : bool) (env : environment) (trunc : N -> nat) (fuel base tf rounds : nat)
    (argv : list string) (x : io) (V : tensor N),
  let st := test_ALS_settings atof argv in
  let R := Z.to_nat (s_rank st) in
  (forall k ls, lens (rng env k ls) = ls /\ wf (rng env k ls)) ->
  String.get 0 (s_model st) = Some "C"%char ->
  run_tensor env fuel st = Ok V -> wf V -> cp_orders (s_pp st) (order V) -> order V < tf ->
  (forall y : N, neqb y n0 = true -> y = n0) -> (forall y : N, neqb y n1 = true -> y = n1) ->
  s_resprint st <> 0%Z -> trunc (nmul (nlit (Z.of_nat (order V) # 1)) (s_percentage st)) <= order V ->
  let W := map (fun i => rng env (base + 2 * i) [nth i (lens V) 0; R]) (seq 0 (order V)) in
  let G := map (fun i => rng env (base + 2 * i + 1) [nth i (lens V) 0; R]) (seq 0 (order V)) in
  test_ALS atof LA clock rank0 env trunc fuel base tf rounds same argv x
  = match cp_program clock rank0 (pinv_solve (svd LA) R) trunc st rounds V W G x with Some r => Ok r | None => Err LoopFuel end.
Proof.
  intros N RL LA Hsh atof clk rank0 same env trunc fuel base tf rounds argv x V st R Hrng HC EV HV Ho Htf Hz H1 Hrp Hsz W G.
  unfold test_ALS. fold st. unfold test_ALS_main. rewrite EV. cbn [bind]. fold R. rewrite (head_char _ _ HC). cbn [Ascii.eqb Bool.eqb].
  change (start_W env base R V) with W. change (start_G env base R V) with G. change (start_F R V) with (zmats V R).
  assert (HW : factors_ok V W R) by (split; [exact HV|apply (start_mats env V R (fun i => base + 2 * i) Hrng)]).
  assert (HG : mats_ok V G R) by (apply (start_mats env V R (fun i => base + 2 * i + 1) Hrng)).
  assert (HF : mats_ok V (zmats V R) R) by apply PPPDriver.zmats_mats.
  assert (Hpp : (0 <= s_pp st <= 2)%Z) by (apply (test_ALS_in_range atof argv)).
  unfold cp_program. fold R. unfold cp_orders in Ho.
  destruct (Z.eqb_spec (s_pp st) 0) as [E0|E0]; [|destruct (Z.eqb_spec (s_pp st) 1) as [E1|E1]; [|destruct (Z.eqb_spec (s_pp st) 2) as [E2|E2]; [|lia]]].
  - rewrite E0.
    assert (H := C60_alsCP_DT_is_the_algorithm N RL LA Hsh clk rank0 V R W G (zmats V R) (nmul (s_tol st) (norm2 V)) (s_timelimit st) (s_lambda st) (s_maxiter st) (s_resprint st) false tf x Ho Htf Hrp HW HG HF).
    destruct (dt_algorithm _ _ _ _ _ _ _ _ _ _ _ _ _ _) as [ret fin]. destruct H as (s & E & Ea & Eb & _ & Ed). rewrite E. cbn [bind]. rewrite Ea, Eb, Ed. reflexivity.
  - rewrite E1.
    rewrite (C57_alsCP_PP_is_the_algorithm N RL LA Hsh clk rank0 same V R W G) by (auto; right; lia).
    destruct (pp_algorithm _ _ _ _ _ _ _ _ _ _ _ _ _ _ _ _ _) as [[ret p]|]; reflexivity.
  - rewrite E2.
    rewrite (C58_partupdate_is_the_algorithm N RL LA Hsh clk rank0 same V R W G) by (auto; right; lia).
    destruct (pu_algorithm _ _ _ _ _ _ _ _ _ _ _ _ _ _ _ _ _ _) as [[ret p]|]; reflexivity.
Qed.
Print Assumptions C61_test_ALS_cp.

(** filling an array with one value *)
Lemma fill_array {A} (a : A) n : for_ 0 n (fun i b => bset b i a) (newbuf n) = Ok (repeat (Some a) n).
Proof.
  destruct (for_inv (fun i b => b = repeat (Some a) i ++ repeat None (n - i))%list (fun i b => bset b i a) 0 n (newbuf n)) as (b & E & ->).
  { lia. } { rewrite Nat.sub_0_r. reflexivity. }
  { intros j b Hj ->. unfold bset. assert (L : List.length (repeat (Some a) j ++ repeat None (n - j))%list = n) by (rewrite app_length, !repeat_length; lia).
    rewrite L. destruct (Nat.ltb_spec j n); [|lia]. eexists. split; [reflexivity|].
    replace (n - j) with (S (n - S j)) by lia. cbn [repeat]. replace (Some a :: repeat (Some a) j)%list with (repeat (Some a) j ++ [Some a])%list by (symmetry; apply (repeat_cons j)).
    rewrite <- app_assoc. cbn [app]. clear. generalize (repeat (None (A:=A)) (n - S j)). intros l. induction j; cbn [repeat app lset]; [reflexivity|f_equal; auto]. }
  rewrite E, Nat.sub_diag. cbn [repeat]. rewrite app_nil_r. reflexivity.
Qed.
Lemma take_repeat {A} (a : A) n k : n <= k -> take n (repeat (Some a) k) = Ok (repeat a n).
Proof. revert k. induction n; intros [|k] H; cbn; try lia; auto. rewrite IHn by lia. reflexivity. Qed.
Lemma take_short {A} (a : A) n k : k < n -> take n (repeat (Some a) k) = Err UB.
Proof. revert k. induction n; intros [|k] H; cbn; try lia; auto. rewrite IHn by lia. reflexivity. Qed.
Lemma prefix_o c t : prefix (String "o" (String c "")) t = Ascii.eqb (char_at t 0) "o" && second_is c t.
Proof.
  destruct t as [|a [|b t]]; unfold second_is, char_at; cbn [prefix String.get String.length Nat.ltb Nat.leb andb]; [reflexivity| |].
  - rewrite andb_false_r. destruct (ascii_dec "o" a); reflexivity.
  - destruct (ascii_dec "o" a) as [<-|Ha]; [rewrite Ascii.eqb_refl|destruct (Ascii.eqb_spec a "o"); [congruence|reflexivity]].
    cbn [andb]. destruct (ascii_dec c b) as [<-|Hb]; [rewrite Ascii.eqb_refl; destruct t; reflexivity|destruct (Ascii.eqb_spec b c); [congruence|reflexivity]].
Qed.
Lemma tucker_ranks_ok {N : num} (env : environment (N := N)) fuel (st : settings (N := N)) V R : run_tensor env fuel st = Ok V -> 1 <= order V ->
  List.length (program_ranks (s_tensor st) (order V) R) = order V -> tucker_ranks st V R = Ok (program_ranks (s_tensor st) (order V) R).
Proof.
  intros EV Ho. unfold tucker_ranks, program_ranks. rewrite !prefix_o. destruct (Nat.eqb_spec (order V) 0); [lia|].
  unfold run_tensor in EV. cbv zeta in EV. destruct (Ascii.eqb_spec (char_at (s_tensor st) 0) "o") as [Eo|Eo]; cbn [andb].
  - rewrite Eo in EV. cbn [Ascii.eqb Bool.eqb] in EV. destruct (second_is "1" (s_tensor st)).
    { intros L. cbn in L. rewrite <- L. reflexivity. }
    destruct (second_is "2" (s_tensor st)).
    { intros L. cbn in L. rewrite <- L. reflexivity. }
    injection EV as <-. cbn in Ho. lia.
  - intros _. rewrite fill_array. cbn [bind]. apply take_repeat. lia.
Qed.
Lemma tcore_lens {N : num} (V : tensor N) W ranks : tucker_ok V W ranks -> lens (tucker_core V W) = ranks.
Proof.
  intros (_ & _ & LR & HM). cbn. apply nth_eq_ext with (d:=0%nat); [rewrite ttmc_lens_length; auto|]. intros m Hm. rewrite ttmc_lens_length in Hm.
  rewrite ttmc_lens_nth by auto. replace (existsb (Nat.eqb m) (seq 0 (order V))) with true.
  - apply (mat_ncol _ _ _ (HM m Hm)).
  - symmetry. apply existsb_exists. exists m. split; [apply in_seq; lia|apply Nat.eqb_refl].
Qed.
(** the Tucker model *)
Theorem C61_test_ALS_tucker :
  forall (N : num), ring_laws N -> sqrt_nonneg (N:=N) ->
  forall (LA : lapack N), svd_trunc_shaped (svd LA) ->
  forall (atof : string -> N) (clock : nat -> N) (rank0 same : bool) (env : environment) (trunc : N -> nat) (fuel base tf rounds : nat)
    (argv : list string) (x : io) (V : tensor N),
  let st := test_ALS_settings atof argv in
  let ranks := program_ranks (s_tensor st) (order V) (Z.to_nat (s_rank st)) in
  String.get 0 (s_model st) = Some "T"%char ->
  run_tensor env fuel st = Ok V -> wf V -> tucker_orders (s_pp st) (order V) -> order V < tf ->
  s_resprint st <> 0%Z -> ranks_ok (lens V) ranks ->
  test_ALS atof LA clock rank0 env trunc fuel base tf rounds same argv x
  = match tucker_program clock rank0 (svd LA) st rounds V ranks x with Some r => Ok r | None => Err LoopFuel end.
Proof.
  intros N RL Hsq LA Hsvd atof clk rank0 same env trunc fuel base tf rounds argv x V st ranks HT EV HV Ho Htf Hrp HR.
  unfold test_ALS. fold st. unfold test_ALS_main. rewrite EV. cbn [bind]. rewrite (head_char _ _ HT). cbn [Ascii.eqb Bool.eqb].
  assert (H18 : 1 <= order V <= 18). { unfold tucker_orders in Ho. destruct (s_pp st) as [|[]|]; lia. }
  assert (Hpp : (0 <= s_pp st <= 2)%Z) by (apply (test_ALS_in_range atof argv)).
  rewrite (tucker_ranks_ok env fuel st V _ EV) by (try lia; apply HR). cbn [bind]. fold ranks.
  destruct (C32_hosvd N RL LA Hsvd V (start_W env base (Z.to_nat (s_rank st)) V) ranks HV ltac:(lia)) as (core & W & E & EW & HW & EC).
  { unfold start_W. rewrite map_length, seq_length. reflexivity. } { exact HR. }
  rewrite E. cbn [bind]. unfold tucker_program. rewrite <- EW, <- EC.
  assert (LC : lens core = ranks).
  { rewrite EC. apply tcore_lens. exact HW. }
  unfold tucker_orders in Ho.
  destruct (Z.eqb_spec (s_pp st) 0) as [E0|E0]; [|destruct (Z.eqb_spec (s_pp st) 1) as [E1|E1]].
  - rewrite E0 in Ho |- *. rewrite (C60_alsTucker_DT_is_the_algorithm N RL Hsq LA Hsvd clk rank0 V core W ranks) by auto. cbn [bind].
    destruct (tdt_algorithm _ _ _ _ _ _ _ _ _ _ _ _ _) as [ret k]. reflexivity.
  - rewrite E1 in Ho |- *. rewrite (C59_alsTucker_PP_is_the_algorithm N RL Hsq LA Hsvd clk rank0 V core W ranks) by (auto; try lia; right; lia).
    destruct (tk_algorithm _ _ _ _ _ _ _ _ _ _ _ _ _ _ _) as [[ret k]|]; reflexivity.
  - assert (E2 : s_pp st = 2%Z) by lia. rewrite E2. reflexivity.
Qed.
Print Assumptions C61_test_ALS_tucker.

(** ** orders 1, 2, 3 and 5: no sweep is ever completed *)
Lemma DT_bad_order {N : num} (LA : lapack N) clk rank0 fuel (V : tensor N) W G F tol limit maxiter lambda rp bench x ret s :
  order V = 1 \/ order V = 2 \/ order V = 3 \/ order V = 5 -> List.length W = order V -> 5 <= fuel -> (0 <= maxiter)%Z ->
  alsCP_DT LA clk rank0 fuel V W G F tol limit maxiter lambda rp bench x = Ok (ret, s) -> ret = true /\ dtW s = W /\ dtG s = G.
Proof.
  intros Ho HL Hf Hm. unfold alsCP_DT. destruct (lget W 0) as [W0|]; [|discriminate]. cbn [bind]. destruct (mk_regul _ _) as [regul|]; [|discriminate]. cbn [bind].
  unfold wtime, set_st. cbn [ck st_time rows]. rewrite mk_seqV_ok. cbn [bind].
  destruct (Construct_Dimension_Tree fuel (sempty, sempty) 0 (order V - 1)) as [[parent sibling]|] eqn:Et; [|discriminate]. cbn [bind].
  unfold rounds. replace (Z.to_nat (maxiter + 1 - 0)) with (S (Z.to_nat maxiter)) by lia. cbn [for_iter]. unfold alsCP_DT_iter at 1.
  unfold zmod. destruct (Z.eqb_spec rp 0); [discriminate|]. cbn [bind]. rewrite Z.rem_0_l by auto. cbn [Z.eqb orb].
  unfold alsCP_DT_check. cbn [dtW dtG dtS dtseq dtpn dtio]. destruct (measure _ _ _ _ _ _) as [[[[pn dn] dtime] y]|]; [|discriminate]. cbn [bind].
  destruct (stop_test _ _ _ _ _) as [stop y']. cbn [bind]. destruct stop.
  - cbn [bind]. intros E. injection E as <- <-. cbn [dtW dtG]. split; [|auto]. destruct (maxiter + 1)%Z eqn:Em; [lia|reflexivity|reflexivity].
  - cbn [dtW dtG dtS dtseq]. intros E. exfalso. destruct (alsCP_DT_sweep _ _ _ _ _ _ _ _ _ _ _) as [r|] eqn:Es; [|discriminate].
    destruct Ho as [Ho|[Ho|[Ho|Ho]]].
    + rewrite (C06_order12_undefined N LA V F W G regul _ fuel parent sibling _) in Es; auto; try lia; try discriminate. apply mk_seqV_ok.
    + rewrite (C06_order12_undefined N LA V F W G regul _ fuel parent sibling _) in Es; auto; try lia; try discriminate. apply mk_seqV_ok.
    + destruct (C06_order3_diverges N LA V F W G regul (zeros [ncol W0; ncol W0]) fuel parent sibling (lbuf 3)) as [_ H]; auto; try lia; [rewrite Ho in Et; exact Et|].
      rewrite Ho in Es. exact (H _ _ Es).
    + rewrite (C06_order5_undefined N LA V F W G regul _ fuel parent sibling _) in Es; auto; try lia; try discriminate; rewrite Ho in *; [apply mk_seqV_ok|exact Et].
Qed.

(** -tensor p on a command line (and without -tensor): the folded Laplacian *)
Lemma tensor_p_value {N : num} (RL : ring_laws N) (env : environment (N := N)) fuel st d :
  (forall T, Permutation (dist env T) (all_pairs T)) ->
  char_at (s_tensor st) 0 = "p"%char -> second_is "2" (s_tensor st) = false ->
  s_dim st = Z.of_nat (2 * d) -> 2 <= d <= 15 -> (1 <= s_size st)%Z ->
  run_tensor env fuel st = Ok (mkT (repeat (Z.to_nat (s_size st) * Z.to_nat (s_size st)) d) (data (laplace d (Z.to_nat (s_size st))))).
Proof.
  intros Hdist K1 K2 Hd Hr Hs. unfold run_tensor. cbv zeta. rewrite K1, K2, Hd, Nat2Z.id. cbn [Ascii.eqb Bool.eqb]. unfold cube.
  rewrite (laplacian_ok RL) by (auto using zeros_wf; lia). cbn [bind].
  match goal with |- context [dist env ?T] => set (V0 := T) end. replace (2 * d / 2)%nat with d by (rewrite Nat.mul_comm, Nat.div_mul; lia).
  rewrite (fold_ok V0 _ (dist env V0)); [|apply tabulate_wf|apply zeros_wf| |apply Hdist].
  { cbn [lens zeros tabulate]. do 3 f_equal. apply tabulate_ext. intros x Hx. unfold zeros. rewrite at_tabulate by auto. apply (Radd_0_l RL). }
  unfold V0. cbn [lens zeros tabulate]. clear. induction d; [reflexivity|]. replace (2 * S d)%nat with (S (S (2 * d))) by lia. cbn [repeat]. unfold size in *. cbn [fold_right]. rewrite IHd. lia.
Qed.
(** so every even -dim from 8 to 30 (default 8) gives a well-formed tensor of order dim/2, although run.cxx rejects it (C38) *)
Lemma folded_wf {N : num} d s : wf (mkT (repeat (s * s) d) (data (laplace (N:=N) d s))).
Proof.
  unfold wf. cbn [lens data]. unfold laplace. assert (H := tabulate_wf (repeat s (2 * d)) (laplace_at (N:=N) d)). unfold wf in H. rewrite H. cbn [lens tabulate]. clear. induction d; [reflexivity|]. replace (2 * S d)%nat with (S (S (2 * d))) by lia. cbn [repeat]. unfold size in *. cbn [fold_right]. rewrite IHd. lia.
Qed.
Theorem C61_default_run :
  forall (N : num), ring_laws N ->
  forall (LA : lapack N), svd_shaped (svd LA) ->
  forall (atof : string -> N) (clock : nat -> N) (rank0 same : bool) (env : environment) (trunc : N -> nat) (fuel base tf rounds : nat) (prog : string) (x : io),
  (forall k ls, lens (rng env k ls) = ls /\ wf (rng env k ls)) -> (forall T, Permutation (dist env T) (all_pairs T)) ->
  4 < tf -> prog = "./test_ALS" ->
  let V := mkT [100; 100; 100; 100]%nat (data (laplace 4 10)) in
  let W := map (fun i => rng env (base + 2 * i) [100; 5]%nat) [0; 1; 2; 3] in
  let G := map (fun i => rng env (base + 2 * i + 1) [100; 5]%nat) [0; 1; 2; 3] in
  let '(returned, final) := dt_algorithm clock rank0 V (nmul (nlit (1 # 10000000000)) (norm2 V)) (nlit 5000) 5000 10 false (pinv_solve (svd LA) 5) 5 (nlit 0) (zmats V 5) W G x in
  test_ALS atof LA clock rank0 env trunc fuel base tf rounds same [prog] x = Ok (CP_done returned (cpW final) (cpG final) (cpio final)).
Proof.
  intros N RL LA Hsh atof clk rank0 same env trunc fuel base tf rounds prog x Hrng Hdist Htf -> V W G.
  unfold test_ALS. set (st := test_ALS_settings atof ["./test_ALS"]). 
  assert (EV : run_tensor env fuel st = Ok V).
  { assert (E := tensor_p_value RL env fuel st 4 Hdist eq_refl eq_refl eq_refl ltac:(lia) ltac:(cbn; lia)). exact E. }
  assert (HV : wf V) by exact (folded_wf (N:=N) 4 10).
  unfold test_ALS_main. rewrite EV. cbn [bind]. change (char_at (s_model st) 0) with "C"%char. cbn [Ascii.eqb Bool.eqb]. change (s_pp st) with 0%Z. cbn [Z.eqb].
  change (Z.to_nat (s_rank st)) with 5%nat. change (start_W env base 5 V) with W. change (start_G env base 5 V) with G. change (start_F 5 V) with (zmats V 5).
  change (s_tol st) with (nlit (n:=N) (1 # 10000000000)). change (s_timelimit st) with (nlit (n:=N) 5000). change (s_maxiter st) with 5000%Z. change (s_resprint st) with 10%Z. change (s_lambda st) with (nlit (n:=N) 0).
  assert (HW : factors_ok V W 5) by (split; [exact HV|apply (start_mats env V 5 (fun i => base + 2 * i) Hrng)]).
  assert (HG : mats_ok V G 5) by (apply (start_mats env V 5 (fun i => base + 2 * i + 1) Hrng)).
  assert (H := C60_alsCP_DT_is_the_algorithm N RL LA Hsh clk rank0 V 5 W G (zmats V 5) (nmul (nlit (1 # 10000000000)) (norm2 V)) (nlit 5000) (nlit 0) 5000 10 false tf x
    (or_introl eq_refl) Htf ltac:(discriminate) HW HG (PPPDriver.zmats_mats V 5)).
  destruct (dt_algorithm _ _ _ _ _ _ _ _ _ _ _ _ _ _) as [ret fin]. destruct H as (s & E & Ea & Eb & _ & Ed). rewrite E. cbn [bind]. rewrite Ea, Eb, Ed. reflexivity.
Qed.
Print Assumptions C61_default_run.
(** a tensor of order 1, 2, 3 or 5: a run of -model C -pp 0 that ends normally has done nothing: it stopped at its first check.
    All other runs end in undefined behaviour or never end *)
Theorem C61_bad_orders :
  forall (N : num) (LA : lapack N) (atof : string -> N) (clock : nat -> N) (rank0 same : bool) (env : environment) (trunc : N -> nat) (fuel base tf rounds : nat)
    (argv : list string) (x : io) (V : tensor N) (r : als_result),
  let st := test_ALS_settings atof argv in
  let R := Z.to_nat (s_rank st) in
  String.get 0 (s_model st) = Some "C"%char -> s_pp st = 0%Z ->
  run_tensor env fuel st = Ok V -> order V = 1 \/ order V = 2 \/ order V = 3 \/ order V = 5 -> 5 <= tf ->
  let W := map (fun i => rng env (base + 2 * i) [nth i (lens V) 0; R]) (seq 0 (order V)) in
  let G := map (fun i => rng env (base + 2 * i + 1) [nth i (lens V) 0; R]) (seq 0 (order V)) in
  test_ALS atof LA clock rank0 env trunc fuel base tf rounds same argv x = Ok r -> exists y, r = CP_done true W G y.
Proof.
  intros N LA atof clk rank0 same env trunc fuel base tf rounds argv x V r st R HC H0 EV Ho Htf W G. unfold test_ALS. fold st. unfold test_ALS_main. rewrite EV, H0. cbn [bind].
  rewrite (head_char _ _ HC). cbn [Ascii.eqb Bool.eqb Z.eqb]. fold R. change (start_W env base R V) with W. change (start_G env base R V) with G. change (start_F R V) with (zmats V R).
  destruct (alsCP_DT _ _ _ _ _ _ _ _ _ _ _ _ _ _ _) as [[ret s]|] eqn:E; [|discriminate]. cbn [bind]. intros Er. injection Er as <-.
  apply DT_bad_order in E; auto; [| |apply (test_ALS_in_range atof argv)].
  - destruct E as (-> & -> & ->). eexists. reflexivity.
  - unfold W. rewrite map_length, seq_length. reflexivity.
Qed.
Print Assumptions C61_bad_orders.
(** concrete runs over the integers: a random 2x2x2x2 tensor, rank 1 *)
Definition trun (LA : lapack Znum) (args : list string) : res (als_result (N:=Znum)) :=
  test_ALS (N:=Znum) aZ LA (fun n => Z.of_nat n : Znum) true eZ (fun z => Z.to_nat z) 5 8 9 6 true ("./test_ALS" :: "-tensor" :: "r" :: "-size" :: "2" :: "-rank" :: "1" :: args) (mkIo (N:=Znum) 0 0%Z []).
Definition tres (r : res (als_result (N:=Znum))) : string * option bool * list (list Z) * list (row (N:=Znum)) :=
  match r with
  | Ok (CP_done b W G x) => ("CP", Some b, map data W, rows x)
  | Ok (Tucker_done b c W x) => ("Tucker", b, map data W, rows x)
  | Ok Nothing => ("nothing", None, [], [])
  | Err _ => ("error", None, [], [])
  end%list.
Theorem C61_case :
  let args := ["-dim"; "4"; "-maxiter"; "2"; "-resprint"; "1"; "-pp_res_tol"; "1"] in
  let st := test_ALS_settings (N:=Znum) aZ (("./test_ALS" :: "-tensor" :: "r" :: "-size" :: "2" :: "-rank" :: "1" :: args) ++ ["-pp"; "2"])%list in
  let zero := [[0; 0]; [0; 0]; [0; 0]; [0; 0]]%Z in
  (* the hypotheses of the CP theorem *)
  svd_shaped (svd LAz) /\ (forall k ls, lens (rng eZ k ls) = ls /\ wf (rng eZ k ls)) /\ String.get 0 (s_model st) = Some "C"%char /\
  (exists V, run_tensor eZ 5 st = Ok V /\ wf V /\ order V = 4 /\ cp_orders (s_pp st) (order V)) /\ s_resprint st <> 0%Z /\
  (* and of the Tucker theorem *)
  svd_trunc_shaped (svd LAt) /\ ranks_ok [2; 2; 2; 2] (program_ranks "r" 4 1) /\
  (* -pp 0, 1, 2: rows of phase 0 and of phase 1 *)
  tres (trun LAz args) = ("CP", Some false, zero, [Row (N:=Znum) 2 0 3%Z 0%Z 0 10%Z 2%Z; Row (N:=Znum) 2 1 40%Z 0%Z 0 4%Z 5%Z; Row (N:=Znum) 2 2 0%Z 0%Z 0 4%Z 8%Z]) /\
  tres (trun LAz (args ++ ["-pp"; "1"])) = ("CP", Some false, zero, [Row (N:=Znum) 2 0 3%Z 0%Z 0 10%Z 2%Z; Row (N:=Znum) 2 0 40%Z 0%Z 1 4%Z 5%Z; Row (N:=Znum) 2 1 0%Z 0%Z 1 4%Z 8%Z; Row (N:=Znum) 2 2 0%Z 0%Z 1 4%Z 11%Z]) /\
  tres (trun LAz (args ++ ["-pp"; "2"])) = ("CP", Some false, zero, [Row (N:=Znum) 2 0 3%Z 0%Z 0 10%Z 2%Z; Row (N:=Znum) 2 0 40%Z 0%Z 1 4%Z 5%Z; Row (N:=Znum) 2 1 0%Z 0%Z 1 4%Z 8%Z; Row (N:=Znum) 2 2 0%Z 0%Z 1 4%Z 11%Z]) /\
  tres (trun LAt (args ++ ["-model"; "T"])) = ("Tucker", Some false, [[-1; -1]; [-1; -1]; [0; -1]; [-1; -1]]%Z, [Row (N:=Znum) 2 1 14%Z 0%Z 0 4%Z 2%Z; Row (N:=Znum) 2 2 0%Z 0%Z 0 4%Z 5%Z]) /\
  tres (trun LAt (args ++ ["-model"; "T"; "-pp"; "2"])) = ("Tucker", None, [[-1; -1]; [3; 2]; [-1; -1]; [-1; -1]]%Z, []) /\
  (* order 3: the run does not end normally *)
  tres (trun LAz ["-dim"; "3"; "-maxiter"; "2"; "-resprint"; "1"]) = ("error", None, [], []).
Proof.
  cbv zeta.
  split; [exact LAz_shaped|]. split; [intros k ls; split; [reflexivity|apply tabulate_wf]|]. split; [reflexivity|].
  split; [eexists; split; [vm_compute; reflexivity|]; split; [vm_compute; reflexivity|]; split; [reflexivity|left; reflexivity]|]. split; [discriminate|].
  split; [exact LAt_shaped|]. split; [split; [reflexivity|intros i Hi; do 4 (destruct i; [cbn; lia|]); cbn in Hi; lia]|].
  do 5 (split; [vm_compute; reflexivity|]). vm_compute. reflexivity.
Qed.
Print Assumptions C61_case.
