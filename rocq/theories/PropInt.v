(** C82: the iteration counters are ints *)
From Coq Require Import String Ascii List ZArith QArith Qround Bool Arith Lia.
From Verif Require Import Base Num Tensor F64 Spec Spec3 Spec4 Spec6 Spec26 MCommon MCP MTucker MOpt MOptLR MCPD MGen MRun MMains MInt MInt2
  PBase PMat PCPD PCPD2 PInt PRun PropRun PropALS PropCPD.
Import ListNotations.
Local Close Scope Q_scope.

(** ** the drivers: the same as over unbounded integers, or an overflow *)
Section D.
Context {N : num} (LA : lapack N) (clk : nat -> N) (rank0 : bool).
Lemma fin3_or {A B C} (a b : res (A * Z * B)) (h : B -> C) mx : or_ub a b ->
  or_ub ('(_, it, s) <- a ;; v <- verdict it mx ;; Ok (v, h s)) ('(_, it, s) <- b ;; Ok (negb (Z.eqb it (mx + 1)), h s)).
Proof. intros H. apply or_bind; auto. intros [[f it] s] _. destruct (verdict_or it mx) as [->| ->]; cbn [bind]; [apply or_refl|right; auto]. Qed.
Lemma fin3_eq {A B C} (a b : res (A * Z * B)) (h : B -> C) mx : a = b -> (INT_MIN <= mx < INT_MAX)%Z ->
  ('(_, it, s) <- a ;; v <- verdict it mx ;; Ok (v, h s)) = ('(_, it, s) <- b ;; Ok (negb (Z.eqb it (mx + 1)), h s)).
Proof. intros -> H. apply eq_bind; auto. intros [[f it] s] _. rewrite verdict_eq; auto. Qed.
Lemma fin3_bad {A B C} (a : res (A * Z * B)) (h : B -> C) r : ('(_, it, s) <- a ;; v <- verdict it INT_MAX ;; Ok (v, h s)) <> Ok r.
Proof. destruct a as [[[f it] s]|e]; cbn [bind]; [rewrite verdict_bad|]; discriminate. Qed.
Lemma never_bind {A B} (a : res A) (f : A -> res B) : (forall x r, f x <> Ok r) -> forall r, bind a f <> Ok r.
Proof. intros H r. destruct a; cbn [bind]; [apply H|discriminate]. Qed.

Lemma loop_or {S} (body : Z -> S -> res (flow * S)) it mx s : or_ub (for_int (rounds it mx) it mx body s) (for_iter (rounds it mx) it body s).
Proof. apply for_int_or; auto. intros; apply or_refl. Qed.
Lemma loop_eq {S} (body : Z -> S -> res (flow * S)) mx s : (mx < INT_MAX)%Z -> for_int (rounds 0 mx) 0 mx body s = for_iter (rounds 0 mx) 0 body s.
Proof. intros H. apply for_int_eq; auto. unfold INT_MIN. lia. Qed.
End D.

Theorem C82_only_overflow : forall (N : num) (LA : lapack N) (clock : nat -> N) (rank0 : bool) (V core : tensor N) (W G F : list (tensor N))
    (tol tol_init limit lambda ratio : N) (maxiter resprint : Z) (update_size fuel rounds ord size r : nat) (same bench : bool) (m : cpd_method) (x : io (N:=N)),
  or_ub (alsCP_int LA clock V W G F tol limit maxiter x) (alsCP LA clock V W G F tol limit maxiter x) /\
  or_ub (alsCP_DT_int LA clock rank0 fuel V W G F tol limit maxiter lambda resprint bench x)
        (alsCP_DT LA clock rank0 fuel V W G F tol limit maxiter lambda resprint bench x) /\
  or_ub (alsCP_PP_int LA clock rank0 rounds fuel same V W G tol tol_init limit maxiter lambda ratio resprint bench x)
        (alsCP_PP LA clock rank0 rounds fuel same V W G tol tol_init limit maxiter lambda ratio resprint bench x) /\
  or_ub (alsCP_PP_partupdate_int LA clock rank0 rounds fuel same V W G tol tol_init limit maxiter lambda ratio update_size resprint bench x)
        (alsCP_PP_partupdate LA clock rank0 rounds fuel same V W G tol tol_init limit maxiter lambda ratio update_size resprint bench x) /\
  or_ub (alsTucker_int LA clock V core W tol limit maxiter x) (alsTucker LA clock V core W tol limit maxiter x) /\
  or_ub (alsTucker_DT_int LA clock rank0 fuel V core W tol limit maxiter resprint bench x)
        (alsTucker_DT LA clock rank0 fuel V core W tol limit maxiter resprint bench x) /\
  or_ub (alsTucker_PP_int LA clock rank0 rounds fuel V core W tol tol_init limit maxiter resprint bench x)
        (alsTucker_PP LA clock rank0 rounds fuel V core W tol tol_init limit maxiter resprint bench x) /\
  or_ub (cpd_run_int LA clock rank0 m rounds ord size r V W G lambda tol limit maxiter resprint bench x)
        (cpd_run LA clock rank0 m rounds ord size r V W G lambda tol limit maxiter resprint bench x).
Proof.
  intros. repeat match goal with |- _ /\ _ => split end.
  - unfold alsCP_int, alsCP. destruct (wtime clock x) as [t x1]. cbv zeta. do 2 orb. apply (fin3_or _ _ (fun s => s)), loop_or.
  - unfold alsCP_DT_int, alsCP_DT. destruct (wtime clock x) as [t x1]. cbv zeta. do 3 orb. apply or_bind; [apply or_refl|intros [p q] _]. apply (fin3_or _ _ (fun s => s)), loop_or.
  - unfold alsCP_PP_int, alsCP_PP. destruct (wtime clock x) as [t x1]. cbv zeta. orb. apply end_or, pp_while_or; intros; [apply DT_sub_or|apply PP_sub_or].
  - unfold alsCP_PP_partupdate_int, alsCP_PP_partupdate. destruct (wtime clock x) as [t x1]. cbv zeta. orb. apply end_or, pp_while_or; intros; [apply DT_sub_or|apply PU_sub_or].
  - unfold alsTucker_int, alsTucker. destruct (wtime clock x) as [t x1]. cbv zeta. orb. apply (fin3_or _ _ (fun s => s)), loop_or.
  - unfold alsTucker_DT_int, alsTucker_DT. cbv zeta. destruct (wtime clock x) as [t x1]. do 2 orb. apply or_bind; [apply or_refl|intros [p q] _]. do 2 orb. apply fin3_or, loop_or.
  - unfold alsTucker_PP_int, alsTucker_PP. destruct (wtime clock x) as [t x1]. cbv zeta. orb. apply end_or, tk_while_or; intros; [apply TDT_sub_or|apply TPP_sub_or].
  - unfold cpd_run_int, cpd_run, keep. destruct m; do 4 orb; (apply or_bind; [apply cpd_als_or|intros [? ?] _; apply or_refl]).
Qed.

Theorem C82_counters_exact : forall (N : num) (LA : lapack N) (clock : nat -> N) (rank0 : bool) (V core : tensor N) (W G F : list (tensor N))
    (tol tol_init limit lambda ratio : N) (maxiter resprint : Z) (update_size fuel rounds : nat) (same bench : bool) (x : io (N:=N)),
  (INT_MIN <= maxiter < INT_MAX)%Z ->
  alsCP_int LA clock V W G F tol limit maxiter x = alsCP LA clock V W G F tol limit maxiter x /\
  alsCP_DT_int LA clock rank0 fuel V W G F tol limit maxiter lambda resprint bench x
    = alsCP_DT LA clock rank0 fuel V W G F tol limit maxiter lambda resprint bench x /\
  alsTucker_int LA clock V core W tol limit maxiter x = alsTucker LA clock V core W tol limit maxiter x /\
  alsTucker_DT_int LA clock rank0 fuel V core W tol limit maxiter resprint bench x
    = alsTucker_DT LA clock rank0 fuel V core W tol limit maxiter resprint bench x /\
  (* the benchmark counts one more *)
  ((bench = true -> maxiter < INT_MAX - 1)%Z ->
  alsCP_PP_int LA clock rank0 rounds fuel same V W G tol tol_init limit maxiter lambda ratio resprint bench x
    = alsCP_PP LA clock rank0 rounds fuel same V W G tol tol_init limit maxiter lambda ratio resprint bench x /\
  alsCP_PP_partupdate_int LA clock rank0 rounds fuel same V W G tol tol_init limit maxiter lambda ratio update_size resprint bench x
    = alsCP_PP_partupdate LA clock rank0 rounds fuel same V W G tol tol_init limit maxiter lambda ratio update_size resprint bench x /\
  alsTucker_PP_int LA clock rank0 rounds fuel V core W tol tol_init limit maxiter resprint bench x
    = alsTucker_PP LA clock rank0 rounds fuel V core W tol tol_init limit maxiter resprint bench x).
Proof.
  intros N LA clock rank0 V core W G F tol ti limit lambda ratio mx rp us fuel wf same bench x Hm.
  split; [|split; [|split; [|split]]].
  - unfold alsCP_int, alsCP. destruct (wtime clock x) as [t x1]. cbv zeta. do 2 (apply eq_bind; [auto|intros ? _]). apply (fin3_eq _ _ (fun s => s)); auto. apply loop_eq; lia.
  - unfold alsCP_DT_int, alsCP_DT. destruct (wtime clock x) as [t x1]. cbv zeta. do 3 (apply eq_bind; [auto|intros ? _]). apply eq_bind; [auto|intros [p q] _].
    apply (fin3_eq _ _ (fun s => s)); auto. apply loop_eq; lia.
  - unfold alsTucker_int, alsTucker. destruct (wtime clock x) as [t x1]. cbv zeta. apply eq_bind; [auto|intros ? _]. apply (fin3_eq _ _ (fun s => s)); auto. apply loop_eq; lia.
  - unfold alsTucker_DT_int, alsTucker_DT. cbv zeta. destruct (wtime clock x) as [t x1]. do 2 (apply eq_bind; [auto|intros ? _]). apply eq_bind; [auto|intros [p q] _].
    do 2 (apply eq_bind; [auto|intros ? _]). apply fin3_eq; auto. apply loop_eq; lia.
  - intros Hb. assert (Hm2 : (mx < (if bench then INT_MAX - 1 else INT_MAX))%Z) by (destruct bench; [auto|lia]).
    assert (HD : forall ti it p, (0 <= it <= mx)%Z -> alsCP_DT_sub_int LA clock rank0 fuel V tol ti limit lambda mx rp it p = alsCP_DT_sub LA clock rank0 fuel V tol ti limit lambda mx rp it p /\
        (forall it' p', alsCP_DT_sub LA clock rank0 fuel V tol ti limit lambda mx rp it p = Ok (it', p') -> (0 <= it' <= mx + 1)%Z)).
    { intros ti' it p Hi. destruct (DT_sub_eq LA clock rank0 fuel V tol ti' limit lambda mx rp it p ltac:(lia) ltac:(lia)) as [E1 E2].
      split; [exact E1|]. intros it' p' E. specialize (E2 _ _ E). lia. }
    split; [|split].
    + unfold alsCP_PP_int, alsCP_PP. destruct (wtime clock x) as [t x1]. cbv zeta. apply eq_bind; [auto|intros ? _]. apply end_eq; auto.
      apply (pp_while_eq clock); [intros _ it p Hi; apply HD; auto|intros it p Hi; apply PP_sub_eq; auto|lia].
    + unfold alsCP_PP_partupdate_int, alsCP_PP_partupdate. destruct (wtime clock x) as [t x1]. cbv zeta. apply eq_bind; [auto|intros ? _]. apply end_eq; auto.
      apply (pp_while_eq clock); [intros _ it p Hi; apply HD; auto|intros it p Hi; apply PU_sub_eq; auto|lia].
    + unfold alsTucker_PP_int, alsTucker_PP. destruct (wtime clock x) as [t x1]. cbv zeta. apply eq_bind; [auto|intros ? _]. apply end_eq; auto.
      apply (tk_while_eq clock); [|intros ti' it p Hi; apply TPP_sub_eq; auto|lia]. intros _ ti' it p Hi.
      destruct (TDT_sub_eq LA clock rank0 fuel V tol ti' limit mx rp it p ltac:(lia) ltac:(lia)) as [E1 E2].
      split; [exact E1|]. intros it' p' E. specialize (E2 _ _ E). lia.
Qed.

(** CPD::als: at most 2 (maxsweep + 1) steps *)
Theorem C82_cpd_counters_exact : forall (N : num) (LA : lapack N) (clock : nat -> N) (rank0 : bool) (m : cpd_method) (ord size r : nat)
    (V : tensor N) (W G : list (tensor N)) (lambda tol limit : N) (maxsweep resprint : Z) (bench : bool) (x : io (N:=N)),
  2 <= order V -> (0 <= maxsweep <= 1073741822)%Z ->
  let rounds := 2 * (Z.to_nat maxsweep + 1) in
  cpd_run_int LA clock rank0 m rounds ord size r V W G lambda tol limit maxsweep resprint bench x
    = cpd_run LA clock rank0 m rounds ord size r V W G lambda tol limit maxsweep resprint bench x /\
  cpd_run_int LA clock rank0 m rounds ord size r V W G lambda tol limit maxsweep resprint bench x <> Err LoopFuel.
Proof.
  intros N LA clock rank0 m ord size r V W G lambda tol limit ms rp bench x Ho Hms wf.
  assert (E : cpd_run_int LA clock rank0 m wf ord size r V W G lambda tol limit ms rp bench x
    = cpd_run LA clock rank0 m wf ord size r V W G lambda tol limit ms rp bench x).
  { assert (Hwf : (Z.of_nat wf <= INT_MAX)%Z) by (unfold wf, INT_MAX; clear wf; lia). assert (Hm2 : (ms + 2 <= INT_MAX)%Z) by (unfold INT_MAX; lia). clearbody wf.
    assert (HP : (0 <= (Z.of_nat (order V) - 1 # Pos.of_nat (order V)) <= 1)%Q).
    { unfold Qle. cbn [Qnum Qden]. replace (Z.pos (Pos.of_nat (order V))) with (Z.of_nat (order V)) by (rewrite <- positive_nat_Z, Nat2Pos.id by lia; auto). lia. }
    unfold cpd_run_int, cpd_run, keep. destruct m; do 4 (apply eq_bind; [auto|intros ? _]); (apply eq_bind; [|auto]); apply cpd_als_eq; auto; try lia; intros s q s' Es.
    - rewrite (dt_part LA _ _ _ _ _ _ Es). split; discriminate.
    - rewrite (ms_part LA _ _ _ _ _ _ Es). exact HP.
    - rewrite (dl_part LA _ _ _ _ _ _ _ _ Es). split; discriminate.
    - rewrite (ml_part LA _ _ _ _ _ _ _ _ Es). exact HP.
    - rewrite (simple_part LA _ _ _ _ _ Es). split; discriminate. }
  split; [exact E|]. rewrite E. apply C24_als_terminates; auto; lia.
Qed.

(** with maxiter = 2147483647 no driver has a defined result *)
Theorem C82_int_max_undefined : forall (N : num) (LA : lapack N) (clock : nat -> N) (rank0 : bool) (V core : tensor N) (W G F : list (tensor N))
    (tol tol_init limit lambda ratio : N) (resprint : Z) (update_size fuel rounds ord size r : nat) (same bench : bool) (m : cpd_method) (x : io (N:=N)),
  (forall y, alsCP_int LA clock V W G F tol limit INT_MAX x <> Ok y) /\
  (forall y, alsCP_DT_int LA clock rank0 fuel V W G F tol limit INT_MAX lambda resprint bench x <> Ok y) /\
  (forall y, alsCP_PP_int LA clock rank0 rounds fuel same V W G tol tol_init limit INT_MAX lambda ratio resprint bench x <> Ok y) /\
  (forall y, alsCP_PP_partupdate_int LA clock rank0 rounds fuel same V W G tol tol_init limit INT_MAX lambda ratio update_size resprint bench x <> Ok y) /\
  (forall y, alsTucker_int LA clock V core W tol limit INT_MAX x <> Ok y) /\
  (forall y, alsTucker_DT_int LA clock rank0 fuel V core W tol limit INT_MAX resprint bench x <> Ok y) /\
  (forall y, alsTucker_PP_int LA clock rank0 rounds fuel V core W tol tol_init limit INT_MAX resprint bench x <> Ok y) /\
  (forall y, cpd_run_int LA clock rank0 m rounds ord size r V W G lambda tol limit INT_MAX resprint bench x <> Ok y).
Proof.
  intros. repeat match goal with |- _ /\ _ => split end.
  - unfold alsCP_int. destruct (wtime clock x) as [t x1]. cbv zeta. do 2 (apply never_bind; intros ?). intros y. apply (fin3_bad _ (fun s => s)).
  - unfold alsCP_DT_int. destruct (wtime clock x) as [t x1]. cbv zeta. do 3 (apply never_bind; intros ?). apply never_bind; intros [p q]. intros y. apply (fin3_bad _ (fun s => s)).
  - unfold alsCP_PP_int. destruct (wtime clock x) as [t x1]. cbv zeta. apply never_bind; intros ?. intros y. apply end_bad.
  - unfold alsCP_PP_partupdate_int. destruct (wtime clock x) as [t x1]. cbv zeta. apply never_bind; intros ?. intros y. apply end_bad.
  - unfold alsTucker_int. destruct (wtime clock x) as [t x1]. cbv zeta. apply never_bind; intros ?. intros y. apply (fin3_bad _ (fun s => s)).
  - unfold alsTucker_DT_int. cbv zeta. destruct (wtime clock x) as [t x1]. do 2 (apply never_bind; intros ?). apply never_bind; intros [p q]. do 2 (apply never_bind; intros ?). intros y. apply fin3_bad.
  - unfold alsTucker_PP_int. destruct (wtime clock x) as [t x1]. cbv zeta. apply never_bind; intros ?. intros y. apply end_bad.
  - unfold cpd_run_int, keep. destruct m; do 4 (apply never_bind; intros ?); intros y; match goal with |- bind ?a _ <> _ => destruct a as [[? ?]|] eqn:E end; cbn [bind];
      try discriminate; exfalso; eapply cpd_als_bad; eauto.
Qed.

(** so a run of alsCP_DT that is fine over the integers is undefined *)
Theorem C82_alsCP_DT_int_max : forall (N : num), ring_laws N ->
  forall (LA : lapack N), svd_shaped (svd LA) ->
  forall (clock : nat -> N) (rank0 : bool) (V : tensor N) (R : nat) (W G F : list (tensor N)) (tol limit lambda : N) (resprint : Z)
    (bench : bool) (fuel : nat) (x : io (N:=N)),
  order V = 4 \/ 6 <= order V <= 19 -> order V < fuel -> factors_ok V W R -> mats_ok V F R -> mats_ok V G R -> resprint <> 0%Z ->
  alsCP_DT_int LA clock rank0 fuel V W G F tol limit INT_MAX lambda resprint bench x = Err UB.
Proof.
  intros N RL LA HL clock rank0 V R W G F tol limit lambda rp bench fuel x Ho Hf HW HF HG Hr.
  destruct (C26_alsCP_DT N RL LA HL clock rank0 V R W G F tol limit INT_MAX lambda rp bench fuel x Ho Hf HW HF HG ltac:(unfold INT_MAX; lia) Hr) as (ret & st & k & E & _).
  destruct (proj1 (proj2 (C82_only_overflow N LA clock rank0 V V W G F tol tol limit lambda lambda INT_MAX rp 0 fuel 0 0 0 0 true bench Simple x))) as [A|A]; auto.
  rewrite E in A. exfalso. revert A. apply (proj1 (proj2 (C82_int_max_undefined N LA clock rank0 V V W G F tol tol limit lambda lambda rp 0 fuel 0 0 0 0 true bench Simple x))).
Qed.

(** ** the program test_ALS, for every command line *)
Lemma atoi_range s : (INT_MIN <= atoi s <= INT_MAX)%Z.
Proof.
  unfold atoi, MRun.to_int, INT_MIN, INT_MAX. change (2 ^ 31)%Z with 2147483648%Z. change (2 ^ 32)%Z with 4294967296%Z.
  assert (A := Z.mod_pos_bound (strtol s + 2147483648) 4294967296 ltac:(lia)). lia.
Qed.
Lemma maxiter_range {N : num} (atof : string -> N) argv : (0 <= s_maxiter (test_ALS_settings atof argv) <= INT_MAX)%Z.
Proof.
  cbn [s_maxiter test_ALS_settings]. unfold opt_int, neg. destruct (getCmdOption argv "-maxiter") as [v|]; [|unfold INT_MAX; lia].
  assert (A := atoi_range v). cbv zeta. destruct (Z.ltb_spec (atoi v) 0); unfold INT_MAX in *; lia.
Qed.
Lemma starts_dec m : starts_CT m \/ ~ starts_CT m.
Proof. destruct (bad_model m) eqn:E; [right; intros Hm; apply (proj2 (model_ok m)) in Hm; congruence|left; apply (proj1 (model_ok m)); auto]. Qed.
Theorem C82_test_ALS : forall (N : num) (LA : lapack N) (clock : nat -> N) (rank0 : bool) (env : environment (N:=N)) (trunc : N -> nat)
    (atof : string -> N) (argv : list string) (fuel base tf rounds : nat) (same : bool) (x : io (N:=N)),
  let st := test_ALS_settings atof argv in
  (s_maxiter st <> INT_MAX ->
   test_ALS_main_int LA clock rank0 env trunc fuel base tf rounds same st x = test_ALS_main LA clock rank0 env trunc fuel base tf rounds same st x) /\
  (s_maxiter st = INT_MAX -> char_at (s_model st) 0 = "C"%char \/ (s_pp st <= 1)%Z ->
   forall y, test_ALS_main_int LA clock rank0 env trunc fuel base tf rounds same st x <> Ok y).
Proof.
  intros N LA clock rank0 env trunc atof argv fuel base tf wf same x st. assert (Hr : (0 <= s_maxiter st <= INT_MAX)%Z) by apply maxiter_range.
  assert (Hpp : (0 <= s_pp st <= 2)%Z).
  { unfold st. cbn [s_pp test_ALS_settings]. unfold opt_int. destruct (getCmdOption argv "-pp"); [|lia]. cbv zeta.
    match goal with |- context [if ?b then _ else _] => destruct b eqn:B end; [lia|]. apply orb_false_iff in B. destruct B as [B1 B2].
    apply Z.ltb_ge in B1. apply Z.ltb_ge in B2. lia. }
  assert (Hmod : starts_CT (s_model st)) by (destruct (C36_test_ALS_settings N atof argv) as (H & _); fold st in H;
    apply (setting_ok _ _ _ _ _ _ starts_dec H); left; reflexivity).
  clearbody st. split.
  - intros Hne. unfold test_ALS_main_int, test_ALS_main. apply eq_bind; [auto|]. intros V _. cbv zeta.
    assert (K := fun core W G F tol ti lambda ratio us => C82_counters_exact N LA clock rank0 V core W G F tol ti (s_timelimit st) lambda ratio (s_maxiter st) (s_resprint st) us tf wf same false x
      ltac:(unfold INT_MIN in *; lia)).
    destruct (Ascii.eqb (char_at (s_model st) 0) "C").
    + destruct (Z.eqb (s_pp st) 0); [rewrite (proj1 (proj2 (K V _ _ _ _ n0 _ n0 0%nat))); reflexivity|].
      destruct (Z.eqb (s_pp st) 1).
      * destruct (K V (start_W env base (Z.to_nat (s_rank st)) V) (start_G env base (Z.to_nat (s_rank st)) V) [] (nmul (s_tol st) (norm2 V)) (s_pp_res_tol st) (s_lambda st) (s_magni st) 0%nat)
          as (_ & _ & _ & _ & H). destruct (H ltac:(discriminate)) as (E & _ & _). rewrite E. reflexivity.
      * destruct (Z.eqb (s_pp st) 2); [|reflexivity]. set (us := trunc _).
        destruct (K V (start_W env base (Z.to_nat (s_rank st)) V) (start_G env base (Z.to_nat (s_rank st)) V) [] (nmul (s_tol st) (norm2 V)) (s_pp_res_tol st) (s_lambda st) (s_magni st) us)
          as (_ & _ & _ & _ & H). destruct (H ltac:(discriminate)) as (_ & E & _). rewrite E. reflexivity.
    + destruct (Ascii.eqb (char_at (s_model st) 0) "T"); [|reflexivity]. apply eq_bind; [auto|]. intros ranks _. apply eq_bind; [auto|]. intros [core W] _.
      destruct (K core W [] [] (nmul (s_tol st) (norm2 V)) (s_pp_res_tol st) (s_lambda st) (s_magni st) 0%nat) as (_ & _ & _ & E1 & H).
      destruct (Z.eqb (s_pp st) 0); [rewrite E1; reflexivity|]. destruct (Z.eqb (s_pp st) 1); [|reflexivity].
      destruct (H ltac:(discriminate)) as (_ & _ & E). rewrite E. reflexivity.
  - intros E Hc y. unfold test_ALS_main_int. rewrite E. apply never_bind. intros V. cbv zeta.
    assert (K := fun core W G F tol ti lambda ratio us => C82_int_max_undefined N LA clock rank0 V core W G F tol ti (s_timelimit st) lambda ratio (s_resprint st) us tf wf 0 0 0 same false Simple x).
    assert (NB : forall A B (a : res A) (f : A -> res B), (forall y, a <> Ok y) -> forall y, bind a f <> Ok y).
    { intros A B a f Ha z. destruct a as [a|]; cbn [bind]; [exfalso; eapply Ha; eauto|discriminate]. }
    destruct (Ascii.eqb_spec (char_at (s_model st) 0) "C") as [EC|EC].
    + clear Hc. intros z. destruct (Z.eqb_spec (s_pp st) 0); [apply NB; apply (proj1 (proj2 (K V _ _ _ _ n0 _ n0 0%nat)))|].
      destruct (Z.eqb_spec (s_pp st) 1); [apply NB; apply (proj1 (proj2 (proj2 (K V _ _ [] _ _ _ _ 0%nat))))|].
      destruct (Z.eqb_spec (s_pp st) 2); [|lia]. set (us := trunc _). apply NB; apply (proj1 (proj2 (proj2 (proj2 (K V _ _ [] _ _ _ _ us))))).
    + destruct Hc as [Hc|Hc]; [contradiction|]. destruct (Ascii.eqb_spec (char_at (s_model st) 0) "T") as [ET|ET].
      * apply never_bind. intros ranks. apply never_bind. intros [core W] z.
        destruct (Z.eqb_spec (s_pp st) 0); [apply NB; apply (proj1 (proj2 (proj2 (proj2 (proj2 (proj2 (K core W [] [] _ n0 n0 n0 0%nat)))))))|].
        destruct (Z.eqb_spec (s_pp st) 1); [|lia]. apply NB; apply (proj1 (proj2 (proj2 (proj2 (proj2 (proj2 (proj2 (K core W [] [] _ _ n0 n0 0%nat)))))))).
      * exfalso. unfold starts_CT, char_at in *. destruct (String.get 0 (s_model st)); destruct Hmod as [Hmod|Hmod]; try discriminate; injection Hmod as ->; auto.
Qed.

(** ** cases *)
Theorem C82_case :
  s_maxiter (test_ALS_settings (N:=Znum) (fun _ => 0%Z) ["test_ALS"; "-maxiter"; "2147483647"]%string) = INT_MAX /\
  s_maxiter (test_ALS_settings (N:=Znum) (fun _ => 0%Z) ["test_ALS"; "-maxiter"; "2147483646"]%string) = (INT_MAX - 1)%Z /\
  alsCP_DT_int LAz (fun n => Z.of_nat n) true 5 alsV alsW alsW alsF (1%Z : Znum) (1000%Z : Znum) INT_MAX (0%Z : Znum) 1%Z false (mkIo (N:=Znum) 0 0%Z []) = Err UB /\
  (exists st, alsCP_DT_int LAz (fun n => Z.of_nat n) true 5 alsV alsW alsW alsF (1%Z : Znum) (1000%Z : Znum) 5 (0%Z : Znum) 1%Z false (mkIo (N:=Znum) 0 0%Z []) = Ok (true, st)) /\
  exists ret st, alsCP_DT LAz (fun n => Z.of_nat n) true 5 alsV alsW alsW alsF (1%Z : Znum) (1000%Z : Znum) INT_MAX (0%Z : Znum) 1%Z false (mkIo (N:=Znum) 0 0%Z []) = Ok (ret, st).
Proof.
  split; [vm_compute; reflexivity|]. split; [vm_compute; reflexivity|]. split; [|split].
  - destruct als_case_ok as (H1 & H2 & _ & H3). eapply (C82_alsCP_DT_int_max Znum Znum_ring LAz LAz_shaped); eauto; try discriminate; try (left; reflexivity); try (rewrite H3; lia).
    split; [reflexivity|]. intros m Hm; cbn in Hm; do 4 (destruct m as [|m]; [split; reflexivity|]); lia.
  - eexists. vm_compute. reflexivity.
  - destruct als_case_ok as (H1 & H2 & _ & H3).
    destruct (C26_alsCP_DT Znum Znum_ring LAz LAz_shaped (fun n => Z.of_nat n) true alsV 2 alsW alsW alsF (1%Z : Znum) (1000%Z : Znum) INT_MAX (0%Z : Znum) 1%Z false 5 (mkIo (N:=Znum) 0 0%Z []))
      as (ret & st & k & E & _); eauto; try discriminate; try (left; reflexivity); try (rewrite H3; lia).
    split; [reflexivity|]. intros m Hm; cbn in Hm; do 4 (destruct m as [|m]; [split; reflexivity|]); lia.
Qed.
Print Assumptions C82_only_overflow.
Print Assumptions C82_counters_exact.
Print Assumptions C82_cpd_counters_exact.
Print Assumptions C82_int_max_undefined.
Print Assumptions C82_alsCP_DT_int_max.
Print Assumptions C82_test_ALS.
Print Assumptions C82_case.
