(** C37 (run), C38, C51, C52, C53: the program run *)
From Coq Require Import List ZArith QArith Bool Arith Lia String Ascii Permutation.
From Verif Require Import Base Num Tensor Spec Spec3 Spec4 Spec5 Spec6 MCommon MCP MOpt MOptLR MCPD MGen MRun PBase PTensor PSum PGen PGen2 PCPD PCPD2 PropOptLR PropCPD PRun PropRun PRun2.
Import ListNotations.
Local Close Scope Q_scope.
Local Open Scope string_scope.

(** ** C38: the default tensor kind p (and every p that is not p2).
    dist is the reading order of fold_unfold: any permutation *)
Theorem C38_default_tensor_never_decomposes : forall (N : num) (atof : string -> N) (LA : lapack N) (clock : nat -> N) (rank0 : bool) (env : environment)
    (fuel base base' wf : nat) (argv : list string) (x : io (N := N)) r,
  let t := s_tensor (run_settings atof argv) in
  String.get 0 t = Some "p"%char -> String.get 1 t <> Some "2"%char ->
  run atof LA clock rank0 env fuel base base' wf argv x <> Ok (Some r).
Proof.
  intros N atof LA clk rank0 env fuel b1 b2 wf argv x r t H1 H2 H. unfold run in H.
  assert (K1 : char_at t 0 = "p"%char) by (unfold char_at; rewrite H1; auto).
  assert (K2 : second_is "2" t = false).
  { unfold second_is, char_at. apply andb_false_iff. right. destruct (String.get 1 t) as [c|]; [|reflexivity]. apply Ascii.eqb_neq. congruence. }
  apply run_some in H as (V & E & HO & _ & H0). destruct (tensor_p clk _ _ _ _ K1 K2 E) as (H3 & H4). rewrite HO in H4.
  pose proof (Nat.div_lt (Z.to_nat (s_dim (run_settings atof argv))) 2 ltac:(lia) ltac:(lia)). lia.
Qed.
(** it fails the assertion of Init that compares the orders *)
Theorem C38_default_tensor_asserts : forall (N : num), ring_laws N ->
  forall (atof : string -> N) (LA : lapack N) (clock : nat -> N) (rank0 : bool) (env : environment)
    (fuel base base' wf : nat) (argv : list string) (x : io (N := N)) (d : nat),
  let st := run_settings atof argv in
  (forall T, Permutation (dist env T) (all_pairs T)) ->
  String.get 0 (s_tensor st) = Some "p"%char -> String.get 1 (s_tensor st) <> Some "2"%char ->
  String.get 0 (s_model st) = Some "C"%char -> (s_pp st <= 4)%Z ->
  s_dim st = Z.of_nat (2 * d) -> 2 <= d <= 15 -> (1 <= s_size st)%Z ->
  run atof LA clock rank0 env fuel base base' wf argv x = Err AssertFail.
Proof.
  intros N RL atof LA clk rank0 env fuel b1 b2 wf argv x d st Hdist H1 H2 HC Hpp Hd Hr Hs. unfold run. fold st.
  assert (K1 : char_at (s_tensor st) 0 = "p"%char) by (unfold char_at; rewrite H1; auto).
  assert (K2 : second_is "2" (s_tensor st) = false).
  { unfold second_is, char_at. apply andb_false_iff. right. destruct (String.get 1 (s_tensor st)) as [c|]; [|reflexivity]. apply Ascii.eqb_neq. congruence. }
  assert (K3 : char_at (s_model st) 0 = "C"%char) by (unfold char_at; rewrite HC; auto).
  assert (ET : exists V, run_tensor env fuel st = Ok V /\ order V = d).
  { unfold run_tensor. cbv zeta. rewrite K1, K2, Hd, Nat2Z.id. cbn [Ascii.eqb Bool.eqb]. unfold cube.
    rewrite (laplacian_ok RL) by (auto using zeros_wf; lia). cbn [bind].
    match goal with |- context [dist env ?T] => set (V0 := T) end. replace (2 * d / 2)%nat with d by (rewrite Nat.mul_comm, Nat.div_mul; lia).
    rewrite (fold_ok V0 _ (dist env V0)); [|apply tabulate_wf|apply zeros_wf| |apply Hdist].
    - eexists. split; [reflexivity|]. unfold order. cbn [lens zeros tabulate]. apply repeat_length.
    - unfold V0. cbn [lens zeros tabulate]. clear. induction d; [reflexivity|]. replace (2 * S d)%nat with (S (S (2 * d))) by lia. cbn [repeat]. unfold size in *. cbn [fold_right]. rewrite IHd. lia. }
  destruct ET as (V & EV & HV). unfold run_main. cbv zeta. rewrite EV. cbn [bind]. rewrite K3. cbn [Ascii.eqb Bool.eqb].
  assert (Hpos : (0 <= s_pp st)%Z) by (apply (C36_run_in_range N atof argv)).
  assert (Hm : exists m, run_method st = Some m).
  { unfold run_method. destruct (s_pp st) as [|p|p]; [eexists; reflexivity| |lia].
    destruct p as [[|[]|]|[[]|[]|]|]; try lia; eexists; reflexivity. }
  destruct Hm as (m & ->). rewrite cpd_run_bad; [reflexivity|rewrite Hd, Nat2Z.id; lia|rewrite Hd, Nat2Z.id, HV; lia].
Qed.
(** in particular without any option *)
Theorem C38_case : forall (N : num), ring_laws N ->
  forall (atof : string -> N) (LA : lapack N) (clock : nat -> N) (rank0 : bool) (env : environment) (fuel base base' wf : nat) (prog : string) (x : io (N := N)),
  (forall T, Permutation (dist env T) (all_pairs T)) ->
  prog = "./run" -> run atof LA clock rank0 env fuel base base' wf [prog] x = Err AssertFail.
Proof.
  intros N RL atof LA clk rank0 env fuel b1 b2 wf prog x Hd ->. apply (C38_default_tensor_asserts N RL) with (d := 4); auto; try reflexivity; try lia; cbn; try lia; try discriminate.
Qed.

(** ** C51: which tensor kinds run can decompose: c.., r.., p2..; in particular not the data sets o1 and o2 *)
Theorem C51_decomposed_kinds : forall (N : num) (atof : string -> N) (LA : lapack N) (clock : nat -> N) (rank0 : bool) (env : environment)
    (fuel base base' wf : nat) (argv : list string) (x : io (N := N)) r,
  (forall f ls, lens (file env f ls) = ls) ->
  run atof LA clock rank0 env fuel base base' wf argv x = Ok (Some r) ->
  let t := s_tensor (run_settings atof argv) in
  String.get 0 t = Some "c"%char \/ String.get 0 t = Some "r"%char \/ (String.get 0 t = Some "p"%char /\ String.get 1 t = Some "2"%char).
Proof.
  intros N atof LA clk rank0 env fuel b1 b2 wf argv x r Hf H t. apply (only_decomposable LA clk rank0 env Hf) in H. fold t in H. unfold decomposable in H.
  assert (Hc : forall i (c : ascii), c <> "000"%char -> char_at t i = c -> String.get i t = Some c).
  { intros i c Hn. unfold char_at. destruct (String.get i t); congruence. }
  destruct H as [H|[H|[H1 H2]]]; [left|right; left|right; right; split]; try (apply Hc; [discriminate|auto]).
  apply andb_true_iff in H2. apply Ascii.eqb_eq. apply H2.
Qed.
(** the data sets: for every dim, size, rank and pp they end in an assertion failure or in undefined behaviour *)
Theorem C51_data_sets_never_decompose : forall (N : num) (atof : string -> N) (LA : lapack N) (clock : nat -> N) (rank0 : bool) (env : environment)
    (fuel base base' wf : nat) (argv : list string) (x : io (N := N)),
  (forall f ls, lens (file env f ls) = ls) ->
  let st := run_settings atof argv in
  String.get 0 (s_tensor st) = Some "o"%char -> String.get 1 (s_tensor st) = Some "1"%char \/ String.get 1 (s_tensor st) = Some "2"%char ->
  String.get 0 (s_model st) = Some "C"%char -> (s_pp st <= 4)%Z ->
  run atof LA clock rank0 env fuel base base' wf argv x = Err (if (s_dim st =? 4)%Z then AssertFail else UB).
Proof.
  intros N atof LA clk rank0 env fuel b1 b2 wf argv x Hf st H1 H2 HC Hpp. unfold run. fold st.
  assert (K1 : char_at (s_tensor st) 0 = "o"%char) by (unfold char_at; rewrite H1; auto).
  assert (K3 : char_at (s_model st) 0 = "C"%char) by (unfold char_at; rewrite HC; auto).
  assert (Hpos : (0 <= s_pp st)%Z) by (apply (C36_run_in_range N atof argv)).
  assert (Hdim : (0 <= s_dim st)%Z) by (apply (C36_run_in_range N atof argv)).
  assert (Hm : exists m, run_method st = Some m).
  { unfold run_method. destruct (s_pp st) as [|p|p]; [eexists; reflexivity| |lia].
    destruct p as [[|[]|]|[[]|[]|]|]; try lia; eexists; reflexivity. }
  destruct Hm as (m & Em).
  assert (ET : exists f a b c d, run_tensor env fuel st = run_tensor_file env f [a; b; c; d] (Z.to_nat (s_dim st)) /\ a <> b).
  { unfold run_tensor. cbv zeta. rewrite K1. cbn [Ascii.eqb Bool.eqb].
    assert (Hs : forall c, String.get 1 (s_tensor st) = Some c -> forall c', second_is c' (s_tensor st) = Ascii.eqb c c').
    { intros c Hc c'. unfold second_is, char_at. rewrite Hc. destruct (s_tensor st) as [|c0 [|c1 t]]; try discriminate Hc. reflexivity. }
    destruct H2 as [H2|H2]; rewrite !(Hs _ H2).
    - change (Ascii.eqb "1" "1") with true. cbn iota. eexists "coil-100.bin", 3, 128, 128, _. split; [reflexivity|discriminate].
    - change (Ascii.eqb "2" "1") with false. change (Ascii.eqb "2" "2") with true. cbn iota. exists "time-lapse.bin", 33, 1344, 1024, 9. split; [reflexivity|]. intros E. apply Nat.eqb_eq in E. vm_compute in E. discriminate. }
  destruct ET as (f & a & b & c & d & ET & Hab). unfold run_main. cbv zeta. rewrite ET, K3, Em. cbn [Ascii.eqb Bool.eqb].
  destruct (Z.eqb_spec (s_dim st) 4) as [E4|E4].
  - rewrite E4. change (Z.to_nat 4) with 4. rewrite file_tensor_4. cbn [bind].
    rewrite (cpd_run_two LA clk rank0 m wf a b c d); auto; try apply Hf. unfold run_W, order. rewrite map_length, seq_length, Hf. reflexivity.
  - rewrite file_tensor_bad by lia. reflexivity.
Qed.
Theorem C51_case : forall (N : num) (atof : string -> N) (LA : lapack N) (clock : nat -> N) (rank0 : bool) (env : environment)
    (fuel base base' wf : nat) (x : io (N := N)), (forall f ls, lens (file env f ls) = ls) ->
  run atof LA clock rank0 env fuel base base' wf ["./run"; "-tensor"; "o1"; "-dim"; "4"; "-rank"; "20"] x = Err AssertFail /\
  run atof LA clock rank0 env fuel base base' wf ["./run"; "-tensor"; "o2"; "-rank"; "32"] x = Err UB.
Proof.
  intros N atof LA clk rank0 env fuel b1 b2 wf x Hf. split.
  - pose proof (C51_data_sets_never_decompose N atof LA clk rank0 env fuel b1 b2 wf ["./run"; "-tensor"; "o1"; "-dim"; "4"; "-rank"; "20"] x Hf) as H. cbv zeta in H.
    rewrite H; try reflexivity; [left; reflexivity|cbn; lia].
  - pose proof (C51_data_sets_never_decompose N atof LA clk rank0 env fuel b1 b2 wf ["./run"; "-tensor"; "o2"; "-rank"; "32"] x Hf) as H. cbv zeta in H.
    rewrite H; try reflexivity; [right; reflexivity|cbn; lia].
Qed.

(** ** C52: options without effect.  -lambda, -magni, -pp_res_tol, -update_percentage_pp and -tensorfile are read but not used *)
Theorem C52_ignored_options : forall (N : num) (LA : lapack N) (clock : nat -> N) (rank0 : bool) (env : environment)
    (fuel base base' wf : nat) (x : io (N := N)) (st st' : settings (N := N)),
  s_model st = s_model st' -> s_tensor st = s_tensor st' -> s_pp st = s_pp st' -> s_dim st = s_dim st' -> s_maxiter st = s_maxiter st' ->
  s_timelimit st = s_timelimit st' -> s_size st = s_size st' -> s_rank st = s_rank st' -> s_updaterank st = s_updaterank st' ->
  s_resprint st = s_resprint st' -> s_randomsvd st = s_randomsvd st' -> s_tol st = s_tol st' ->
  s_colmin st = s_colmin st' -> s_colmax st = s_colmax st' -> s_rationoise st = s_rationoise st' ->
  run_main LA clock rank0 env fuel base base' wf st x = run_main LA clock rank0 env fuel base base' wf st' x.
Proof. intros. destruct st, st'. cbn in *. subst. reflexivity. Qed.
(** so the decomposition is always computed without regularisation, whatever -lambda says; and with -model T.. or -pp above 4
    nothing is computed *)
Theorem C52_nothing_computed : forall (N : num) (atof : string -> N) (LA : lapack N) (clock : nat -> N) (rank0 : bool) (env : environment)
    (fuel base base' wf : nat) (argv : list string) (x : io (N := N)) r,
  let st := run_settings atof argv in
  String.get 0 (s_model st) = Some "T"%char \/ (4 < s_pp st)%Z ->
  run atof LA clock rank0 env fuel base base' wf argv x = Ok r -> r = None.
Proof.
  intros N atof LA clk rank0 env fuel b1 b2 wf argv x r st H E. unfold run in E. fold st in E. unfold run_main in E. cbv zeta in E.
  destruct (run_tensor env fuel st) as [V|]; [|discriminate]. cbn [bind] in E. destruct H as [H|H].
  - replace (char_at (s_model st) 0) with "T"%char in E by (unfold char_at; rewrite H; auto). cbn in E. congruence.
  - destruct (Ascii.eqb (char_at (s_model st) 0) "C"); [|congruence].
    replace (run_method st) with (@None cpd_method) in E; [congruence|].
    unfold run_method. destruct (s_pp st) as [|p|p]; try lia. destruct p as [[|[]|]|[[]|[]|]|]; try lia; reflexivity.
Qed.

(** ** C53: what run computes with valid settings *)
(** the decomposed tensor *)
Lemma get_char t i c : c <> "000"%char -> (char_at t i = c <-> String.get i t = Some c).
Proof. intros Hn. unfold char_at. destruct (String.get i t); split; congruence. Qed.
Lemma get_length t i c : String.get i t = Some c -> i < String.length t.
Proof. revert i. induction t as [|a t IH]; intros i; [destruct i; discriminate|]. destruct i; cbn [String.get String.length]; intros H; [lia|]. apply IH in H. lia. Qed.
Lemma second_get t c : c <> "000"%char -> (second_is c t = true <-> String.get 1 t = Some c).
Proof.
  intros Hn. unfold second_is. rewrite andb_true_iff, Nat.ltb_lt, Ascii.eqb_eq, (get_char t 1 c Hn). split; [tauto|]. intros H. split; auto. apply get_length in H. lia.
Qed.
Lemma second_get_not t c : c <> "000"%char -> (second_is c t = false <-> String.get 1 t <> Some c).
Proof. intros Hn. rewrite <- second_get by auto. destruct (second_is c t); split; congruence. Qed.
(** the class chosen by -pp, with the options -updaterank and -randomsvd of the low-rank classes *)
Inductive class_for {N : num} (st : settings (N := N)) : cpd_method -> Prop :=
| pp0 : s_pp st = 0%Z -> class_for st TwoSubtree
| pp1 : s_pp st = 1%Z -> class_for st MultiSweep
| pp2 k (r : bool) : s_pp st = 2%Z -> s_updaterank st = Z.of_nat k -> s_randomsvd st = (if r then 1 else 0)%Z -> class_for st (TwoSubtreeLR k r)
| pp3 k (r : bool) : s_pp st = 3%Z -> s_updaterank st = Z.of_nat k -> s_randomsvd st = (if r then 1 else 0)%Z -> class_for st (MultiSweepLR k r)
| pp4 : s_pp st = 4%Z -> class_for st Simple.
(** the kinds of tensors that can be decomposed *)
Definition decomposes (t : string) : Prop :=
  String.get 0 t = Some "c"%char \/ String.get 0 t = Some "r"%char \/ (String.get 0 t = Some "p"%char /\ String.get 1 t = Some "2"%char).
Lemma class_method {N : num} (st : settings (N := N)) m : class_for st m -> run_method st = Some m.
Proof. unfold run_method. intros [H|H|k r H Hk Hr|k r H Hk Hr|H]; rewrite H; cbn iota; rewrite ?Hk, ?Hr, ?Nat2Z.id; try destruct r; reflexivity. Qed.
Lemma decomposes_iff t : decomposes t <-> decomposable t.
Proof. unfold decomposes, decomposable. rewrite !(get_char t 0), second_get by discriminate. tauto. Qed.
Theorem C53_tensor_p2 : forall (N : num), ring_laws N -> forall (env : environment (N := N)) (fuel : nat) (st : settings (N := N)) (d : nat),
  String.get 0 (s_tensor st) = Some "p"%char -> String.get 1 (s_tensor st) = Some "2"%char ->
  s_dim st = Z.of_nat (2 * d) -> 2 <= d <= 15 -> (1 <= s_size st)%Z ->
  run_tensor env fuel st = Ok (laplace d (Z.to_nat (s_size st))).
Proof. intros N RL env fuel st d H1 H2 ? ? ?. apply get_char in H1; [|discriminate]. apply second_get in H2; [|discriminate]. apply (tensor_p2 RL env); auto. Qed.
Theorem C53_tensor_r2 : forall (N : num) (env : environment (N := N)) (fuel : nat) (st : settings (N := N)),
  String.get 0 (s_tensor st) = Some "r"%char -> String.get 1 (s_tensor st) = Some "2"%char ->
  run_tensor env fuel st = Ok (rng env 0 (repeat (Z.to_nat (s_size st)) (Z.to_nat (s_dim st)))).
Proof. intros N env fuel st H1 H2. apply get_char in H1; [|discriminate]. apply second_get in H2; [|discriminate]. apply tensor_r2; auto. Qed.
Theorem C53_tensor_r : forall (N : num), ring_laws N -> forall (env : environment (N := N)) (fuel : nat) (st : settings (N := N)),
  (forall k ls, lens (rng env k ls) = ls /\ wf (rng env k ls)) ->
  String.get 0 (s_tensor st) = Some "r"%char -> String.get 1 (s_tensor st) <> Some "2"%char -> (2 <= s_dim st <= 19)%Z ->
  run_tensor env fuel st = Ok (cp_full (map (fun i => rng env i [Z.to_nat (s_size st); Z.to_nat (s_rank st)]) (seq 0 (Z.to_nat (s_dim st)))) (Z.to_nat (s_rank st))).
Proof. intros N RL env fuel st Hr H1 H2 ?. apply get_char in H1; [|discriminate]. apply second_get_not in H2; [|discriminate]. apply (tensor_r RL env Hr); auto. Qed.
Theorem C53_tensor_c : forall (N : num), ring_laws N -> forall (env : environment (N := N)) (fuel : nat) (st : settings (N := N)) (V : tensor N),
  (forall k ls, lens (rng env k ls) = ls /\ wf (rng env k ls)) ->
  String.get 0 (s_tensor st) = Some "c"%char -> (2 <= s_dim st <= 19)%Z ->
  run_tensor env fuel st = Ok V ->
  let ls := repeat (Z.to_nat (s_size st)) (Z.to_nat (s_dim st)) in
  let noise := rng env 0 ls in
  exists X, Gen_collinearity (fun k n => rng env k [n]) fuel ls (List.length ls) (Z.to_nat (s_rank st)) (s_colmin st) (s_colmax st) = Ok X /\
    V = tabulate ls (fun x => nadd (at_ X x) (nmul (ndiv (nmul (s_rationoise st) (norm2 X)) (norm2 noise)) (at_ noise x))).
Proof.
  intros N RL env fuel st V Hr H1 Hd E ls noise. apply get_char in H1; [|discriminate]. rewrite (tensor_c RL env Hr fuel st H1 Hd) in E. unfold ls at 2. rewrite repeat_length. unfold ls at 1.
  destruct (Gen_collinearity _ _ _ _ _ _ _) as [X|]; [|discriminate]. cbn [bind] in E. exists X. split; auto. injection E as <-. reflexivity.
Qed.
Lemma tensor_shape {N : num} (RL : ring_laws N) (env : environment (N := N)) fuel st V :
  (forall k ls, lens (rng env k ls) = ls /\ wf (rng env k ls)) -> (2 <= s_dim st <= 19)%Z ->
  (char_at (s_tensor st) 0 = "p"%char -> (1 <= s_size st)%Z /\ exists d, s_dim st = Z.of_nat (2 * d) /\ 2 <= d) ->
  decomposable (s_tensor st) -> run_tensor env fuel st = Ok V ->
  lens V = repeat (Z.to_nat (s_size st)) (Z.to_nat (s_dim st)) /\ wf V.
Proof.
  intros Hr Hd Hp [H|[H|[H H2]]] E.
  - rewrite (tensor_c RL env Hr fuel st H Hd) in E. destruct (Gen_collinearity _ _ _ _ _ _ _) as [X|]; [|discriminate]. cbn [bind] in E. injection E as <-.
    split; [reflexivity|apply tabulate_wf].
  - destruct (second_is "2" (s_tensor st)) eqn:E2.
    + rewrite tensor_r2 in E by auto. injection E as <-. apply Hr.
    + rewrite (tensor_r RL env Hr) in E by auto. injection E as <-. split; [|apply tabulate_wf].
      cbn [cp_full lens tabulate]. rewrite map_map. rewrite (map_ext _ (fun _ => Z.to_nat (s_size st))).
      * generalize (Z.to_nat (s_dim st)). intros n. generalize 0. induction n; intros k; cbn [seq map repeat]; f_equal; auto.
      * intros i. unfold nrow. rewrite (proj1 (Hr _ _)). reflexivity.
  - destruct (Hp H) as (Hs & d & Ed & Hd2). rewrite (tensor_p2 RL env fuel st d) in E by (auto; lia). injection E as <-.
    split; [|apply tabulate_wf]. rewrite Ed, Nat2Z.id. reflexivity.
Qed.
Lemma run_setup {N : num} (RL : ring_laws N) (LA : lapack N) clk rank0 (env : environment (N := N)) fuel b1 b2 wfu st x m V :
  let size := Z.to_nat (s_size st) in let R := Z.to_nat (s_rank st) in let o := Z.to_nat (s_dim st) in
  (forall k ls, lens (rng env k ls) = ls /\ Tensor.wf (rng env k ls)) ->
  String.get 0 (s_model st) = Some "C"%char -> run_method st = Some m -> 2 <= o <= 19 -> decomposable (s_tensor st) ->
  (String.get 0 (s_tensor st) = Some "p"%char -> (1 <= s_size st)%Z /\ exists d, s_dim st = Z.of_nat (2 * d) /\ 2 <= d) ->
  run_tensor env fuel st = Ok V ->
  let W := map (fun i => rng env (b1 + i) [size; R]) (seq 0 o) in
  let G := map (fun i => rng env (b2 + i) [size; R]) (seq 0 o) in
  run_main LA clk rank0 env fuel b1 b2 wfu st x =
    (r <- cpd_run LA clk rank0 m wfu o size R V W G n0 (nmul (s_tol st) (norm2 V)) (s_timelimit st) (s_maxiter st) (s_resprint st) false x ;; Ok (Some r)) /\
  order V = o /\ lens V = repeat size o /\ factors_ok V W R /\ mats_ok V G R.
Proof.
  intros size R o Hrng HC Hm Ho Hdec Hp E W G.
  assert (K3 : char_at (s_model st) 0 = "C"%char) by (unfold char_at; rewrite HC; auto).
  destruct (tensor_shape RL env fuel st V Hrng) as (HL & HV); auto; [unfold o in Ho; lia| |].
  { intros Hc. apply Hp. unfold char_at in Hc. destruct (String.get 0 (s_tensor st)); congruence. }
  assert (HO : order V = o) by (unfold order; rewrite HL; apply repeat_length). fold size o in HL.
  assert (EW : forall base, run_W env base R V = map (fun i => rng env (base + i) [size; R]) (seq 0 o)).
  { intros base. unfold run_W. rewrite HO. apply map_ext_in. intros i Hi. apply in_seq in Hi. rewrite HL.
    rewrite (nth_indep _ _ size) by (rewrite repeat_length; lia). rewrite nth_repeat. auto. }
  assert (HM : forall base m', m' < o -> is_mat (fac (map (fun i => rng env (base + i) [size; R]) (seq 0 o)) m') (nth m' (lens V) 0) R).
  { intros base m' Hm'. unfold fac. rewrite (nth_map_lt _ _ _ 0%nat) by (rewrite seq_length; auto). rewrite nth_seq by auto. rewrite HL.
    rewrite (nth_indep _ _ size) by (rewrite repeat_length; lia). rewrite nth_repeat. apply Hrng. }
  split.
  { unfold run_main. cbv zeta. rewrite E. cbn [bind]. rewrite K3, Hm. cbn [Ascii.eqb Bool.eqb]. fold R size o. rewrite !EW. fold W G. reflexivity. }
  split; [auto|]. split; [auto|]. split.
  - split; [auto|]. split; [unfold W; rewrite map_length, seq_length; auto|]. rewrite HO. intros. apply HM; auto.
  - split; [unfold G; rewrite map_length, seq_length; auto|]. rewrite HO. intros. apply HM; auto.
Qed.
(** the run: with the tensor V that was built, the random factors W and the random matrices G that Init puts into the gradients,
    regularisation 0 and tolerance tol * |V| *)
Theorem C53_run : forall (N : num), ring_laws N ->
  forall (atof : string -> N) (LA : lapack N) (clock : nat -> N) (rank0 : bool) (env : environment)
    (fuel base base' wf : nat) (argv : list string) (x : io (N := N)) (m : cpd_method) (V : tensor N),
  let st := run_settings atof argv in
  let size := Z.to_nat (s_size st) in let R := Z.to_nat (s_rank st) in
  tri_shaped (cholesky LA) (solve_tri LA) -> low_shaped (svd LA) (qr_q LA) (MCommon.rnd LA) ->
  (forall k ls, lens (rng env k ls) = ls /\ Tensor.wf (rng env k ls)) ->
  String.get 0 (s_model st) = Some "C"%char -> class_for st m -> method_ok m (Z.to_nat (s_dim st)) size R ->
  s_resprint st <> 0%Z -> 2 * (Z.to_nat (s_maxiter st) + 1) <= wf ->
  decomposes (s_tensor st) ->
  (String.get 0 (s_tensor st) = Some "p"%char -> (1 <= s_size st)%Z /\ exists d, s_dim st = Z.of_nat (2 * d) /\ 2 <= d) ->
  run_tensor env fuel st = Ok V ->
  let o := Z.to_nat (s_dim st) in
  let W := map (fun i => rng env (base + i) [size; R]) (seq 0 o) in
  let G := map (fun i => rng env (base' + i) [size; R]) (seq 0 o) in
  let tol := nmul (s_tol st) (norm2 V) in
  let q := method_part m o in
  let Wf k := fst (method_state m LA n0 V R W G k) in
  let Gf k := snd (method_state m LA n0 V R W G k) in
  exists k (stopped : bool) gn rows,
    run atof LA clock rank0 env fuel base base' wf argv x
      = Ok (Some (negb (Qeq_bool (sweeps_after q k) (inject_Z (s_maxiter st + 1))), method_state m LA n0 V R W G k, gn, rows)) /\
    als_run clock (ck x) tol (s_timelimit st) (s_maxiter st) (s_resprint st) q Gf k stopped /\
    (stopped = true -> gn = grad_norm (Gf k)) /\
    rows = if rank0 then als_rows clock (ck x) V R tol q false Wf Gf (checks q (s_maxiter st) (s_resprint st) (k + if stopped then 1 else 0)) else [].
Proof.
  intros N RL atof LA clk rank0 env fuel b1 b2 wfu argv x m V st size R Hsh Hlow Hrng HC Hm Hok Hrp Hwf Hdec Hp E o W G tol q Wf Gf. apply class_method in Hm. apply decomposes_iff in Hdec.
  assert (Hmax : (0 <= s_maxiter st)%Z) by (apply (C36_run_in_range N atof argv)).
  assert (Ho : 2 <= o <= 19) by (unfold o; clear - Hok; destruct m; cbn [method_ok] in Hok; lia).
  destruct (run_setup RL LA clk rank0 env fuel b1 b2 wfu st x m V Hrng HC Hm Ho Hdec Hp E) as (Erun & HO & HL & HW & HG).
  fold size R o in Erun, HO, HL, HW, HG. fold W G tol in Erun. fold W in HW. fold G in HG.
  assert (Hok' : method_ok m (order V) size R) by (rewrite HO; exact Hok).
  assert (HL' : lens V = repeat size (order V)) by (rewrite HO; exact HL).
  destruct (cpd_run_ok RL LA clk rank0 V size R W G n0 m Hsh Hlow Hok' HL' HW HG wfu tol (s_timelimit st) (s_maxiter st) (s_resprint st) false x Hmax Hrp Hwf) as (k & stopped & gn & rows & Er & Hrun & Hgn & Hrows).
  rewrite HO in Er, Hrun, Hrows. exists k, stopped, gn, rows. unfold run. fold st. rewrite Erun, Er. split; [reflexivity|]. split; [exact Hrun|]. split; [exact Hgn|exact Hrows].
Qed.

Lemma cpd_run_rp0 {N : num} (RL : ring_laws N) (LA : lapack N) clk rank0 (V : tensor N) m wfu o size R W G lambda tol limit ms b x :
  order V = o -> 3 <= o <= 19 -> 1 <= wfu -> (0 <= ms)%Z -> lens V = repeat size o -> factors_ok V W R ->
  cpd_run LA clk rank0 m wfu o size R V W G lambda tol limit ms 0 b x = Err UB.
Proof.
  intros HO Ho Hwf Hms HL HW. destruct wfu as [|wfu]; [lia|]. unfold cpd_run.
  destruct (new_ok clk o (mkOpt W G (zeros [R; R])) ltac:(lia)) as ((s1 & E1) & (s2 & E2) & (s3 & E3) & (s4 & E4)).
  assert (Ei : cpd_init o size R V W = Ok tt) by (rewrite <- HO; apply (cpd_init_ok LA clk V size R W); auto; rewrite HO; auto).
  assert (E0 : exists W0, lget W 0 = Ok W0) by (rewrite (lget_ok _ _ tnil); [eexists; reflexivity|destruct HW as (_ & -> & _); lia]).
  destruct E0 as (W0 & E0).
  destruct m; rewrite ?E1, ?E2, ?E3, ?E4, ?POptEval.opt_seqV_ok by lia; cbn [bind]; rewrite Ei; cbn [bind]; rewrite E0; cbn [bind];
    rewrite (PALS.mk_regul_ok RL); cbn [bind]; rewrite C37_als_resprint_zero by (rewrite ?HO; lia); reflexivity.
Qed.
(** ** C37: -resprint 0 *)
Theorem C37_run_resprint_zero : forall (N : num), ring_laws N ->
  forall (atof : string -> N) (LA : lapack N) (clock : nat -> N) (rank0 : bool) (env : environment)
    (fuel base base' wf : nat) (argv : list string) (x : io (N := N)) (m : cpd_method) (V : tensor N),
  let st := run_settings atof argv in
  (forall k ls, lens (rng env k ls) = ls /\ Tensor.wf (rng env k ls)) ->
  chosen argv "-resprint" "0" ->
  String.get 0 (s_model st) = Some "C"%char -> class_for st m -> (3 <= s_dim st <= 19)%Z -> 1 <= wf ->
  decomposes (s_tensor st) ->
  (String.get 0 (s_tensor st) = Some "p"%char -> (1 <= s_size st)%Z /\ exists d, s_dim st = Z.of_nat (2 * d) /\ 2 <= d) ->
  run_tensor env fuel st = Ok V ->
  run atof LA clock rank0 env fuel base base' wf argv x = Err UB.
Proof.
  intros N RL atof LA clk rank0 env fuel b1 b2 wfu argv x m V st Hrng Hch HC Hm Hd Hwf Hdec Hp E. apply class_method in Hm. apply decomposes_iff in Hdec.
  assert (Hmax : (0 <= s_maxiter st)%Z) by (apply (C36_run_in_range N atof argv)).
  assert (Hr0 : s_resprint st = 0%Z).
  { pose proof (C36_run_settings N atof argv) as H. cbv zeta in H. destruct H as (_ & _ & _ & _ & _ & _ & _ & _ & _ & _ & _ & H & _).
    apply (proj1 H "0" Hch). unfold nonneg. vm_compute. discriminate. }
  destruct (run_setup RL LA clk rank0 env fuel b1 b2 wfu st x m V Hrng HC Hm ltac:(lia) Hdec Hp E) as (Erun & HO & HL & HW & HG).
  unfold run. fold st. rewrite Erun, Hr0. rewrite (cpd_run_rp0 RL LA clk rank0 V); auto; rewrite ?HO; auto; lia.
Qed.
(** a complete run of the program on a 2x2x2 tensor *)
Definition eZ : environment (N := Znum) := mkEnv (N := Znum) (fun k ls => tabulate ls (fun x => (Z.modulo (Z.of_nat (k + nth 0 x 0%nat)%nat) 3) : Znum)) all_pairs (fun _ ls => zeros ls).
Definition aZ (s : string) : Znum := atoi s.
Definition cmd : list string := ["./run"; "-tensor"; "r"; "-dim"; "3"; "-size"; "2"; "-rank"; "1"; "-pp"; "0"; "-maxiter"; "2"; "-tol"; "0"].
Theorem C53_case :
  (forall k ls, lens (rng eZ k ls) = ls /\ wf (rng eZ k ls)) /\
  (let st := run_settings aZ cmd in decomposes (s_tensor st) /\ class_for st TwoSubtree /\ method_ok TwoSubtree (Z.to_nat (s_dim st)) (Z.to_nat (s_size st)) (Z.to_nat (s_rank st))) /\
  match run aZ lLA cZ true eZ 5 3 6 6 cmd (mkIo 0 (0%Z : Znum) []) with
  | Ok (Some (ret, (W, G), g, rows)) => ret = false /\ map data W <> map data (map (fun i => rng eZ (3 + i) [2; 1]) [0; 1; 2]) /\ List.length rows = 3
  | _ => False
  end /\
  run aZ lLA cZ true eZ 5 3 6 6 (cmd ++ ["-resprint"; "0"])%list (mkIo 0 (0%Z : Znum) []) = Err UB.
Proof.
  split; [intros k ls; split; [reflexivity|apply tabulate_wf]|].
  split; [cbv zeta; split; [right; left; reflexivity|split; [apply pp0; reflexivity|vm_compute; lia]]|].
  split; [vm_compute; split; [reflexivity|split; [discriminate|reflexivity]]|vm_compute; reflexivity].
Qed.
Print Assumptions C38_default_tensor_never_decomposes.
Print Assumptions C38_default_tensor_asserts.
Print Assumptions C38_case.
Print Assumptions C51_decomposed_kinds.
Print Assumptions C51_data_sets_never_decompose.
Print Assumptions C51_case.
Print Assumptions C52_ignored_options.
Print Assumptions C52_nothing_computed.
Print Assumptions C53_tensor_p2.
Print Assumptions C53_tensor_r.
Print Assumptions C53_tensor_r2.
Print Assumptions C53_tensor_c.
Print Assumptions C53_run.
Print Assumptions C37_run_resprint_zero.
Print Assumptions C53_case.
