(** C36: the command line *)
From Coq Require Import List ZArith QArith Bool Arith Lia String Ascii.
From Verif Require Import Base Num Tensor Spec6 MRun PRun.
Import ListNotations.
Local Close Scope Q_scope.
Local Open Scope string_scope.

Ltac opts := repeat match goal with |- _ /\ _ => split end;
  first [apply opt_int_ok|apply opt_dbl_ok|apply opt_str_ok];
  first [exact neg_ok|exact dneg_ok|exact dout01_ok|exact never_ok|exact model_ok|intros; apply range_ok].

(** every setting of run is the token after the first occurrence of its option if that is acceptable, and otherwise the default *)
Theorem C36_run_settings : forall (N : num) (atof : string -> N) (argv : list string),
  let s := run_settings atof argv in
  setting argv "-model" (fun t => t) starts_CT "CP" (s_model s) /\
  setting argv "-tensor" (fun t => t) anything "p" (s_tensor s) /\
  setting argv "-pp" atoi nonneg 0%Z (s_pp s) /\
  setting argv "-update_percentage_pp" atof in01 (nlit 1) (s_percentage s) /\
  setting argv "-dim" atoi nonneg 8%Z (s_dim s) /\
  setting argv "-maxiter" atoi nonneg 5000%Z (s_maxiter s) /\
  setting argv "-timelimit" atof (at_least (nlit 0)) (nlit 5000) (s_timelimit s) /\
  setting argv "-size" atoi nonneg 10%Z (s_size s) /\
  setting argv "-rank" atoi nonneg (Z.quot (s_size s) 2) (s_rank s) /\
  setting argv "-updaterank" atoi nonneg (Z.quot (s_size s) 2) (s_updaterank s) /\
  setting argv "-issparse" atoi (between 0 1) 0%Z (s_issparse s) /\
  setting argv "-resprint" atoi nonneg 10%Z (s_resprint s) /\
  setting argv "-randomsvd" atoi (between 0 1) 0%Z (s_randomsvd s) /\
  setting argv "-tol" atof in01 (nlit (1 # 10000000000)) (s_tol s) /\
  setting argv "-pp_res_tol" atof in01 (nlit (1 # 100)) (s_pp_res_tol s) /\
  setting argv "-lambda" atof (at_least (nlit 0)) (nlit 0) (s_lambda s) /\
  setting argv "-magni" atof (at_least (nlit 0)) (nlit 1) (s_magni s) /\
  setting argv "-filename" (fun t => t) anything "out.csv" (s_filename s) /\
  setting argv "-tensorfile" (fun t => t) anything "test" (s_tensorfile s) /\
  setting argv "-colmin" atof anything (nlit (1 # 2)) (s_colmin s) /\
  setting argv "-colmax" atof anything (nlit (9 # 10)) (s_colmax s) /\
  setting argv "-rationoise" atof (at_least (nlit 0)) (nlit (1 # 100)) (s_rationoise s).
Proof. intros N atof argv. cbv zeta. unfold run_settings. cbn [s_model s_tensor s_pp s_percentage s_dim s_maxiter s_timelimit s_size s_rank s_updaterank s_issparse s_resprint s_randomsvd s_tol s_pp_res_tol s_lambda s_magni s_filename s_tensorfile s_colmin s_colmax s_rationoise]. opts. Qed.

(** test_ALS: the rank is at most the size, pp is 0..2 *)
Theorem C36_test_ALS_settings : forall (N : num) (atof : string -> N) (argv : list string),
  let s := test_ALS_settings atof argv in
  setting argv "-model" (fun t => t) starts_CT "CP" (s_model s) /\
  setting argv "-tensor" (fun t => t) anything "p" (s_tensor s) /\
  setting argv "-pp" atoi (between 0 2) 0%Z (s_pp s) /\
  setting argv "-update_percentage_pp" atof in01 (nlit 1) (s_percentage s) /\
  setting argv "-dim" atoi nonneg 8%Z (s_dim s) /\
  setting argv "-maxiter" atoi nonneg 5000%Z (s_maxiter s) /\
  setting argv "-timelimit" atof (at_least (nlit 0)) (nlit 5000) (s_timelimit s) /\
  setting argv "-size" atoi nonneg 10%Z (s_size s) /\
  setting argv "-rank" atoi (between 0 (s_size s)) (Z.quot (s_size s) 2) (s_rank s) /\
  setting argv "-issparse" atoi (between 0 1) 0%Z (s_issparse s) /\
  setting argv "-resprint" atoi nonneg 10%Z (s_resprint s) /\
  setting argv "-tol" atof in01 (nlit (1 # 10000000000)) (s_tol s) /\
  setting argv "-pp_res_tol" atof in01 (nlit (1 # 100)) (s_pp_res_tol s) /\
  setting argv "-lambda" atof (at_least (nlit 0)) (nlit 0) (s_lambda s) /\
  setting argv "-magni" atof (at_least (nlit 0)) (nlit 1) (s_magni s) /\
  setting argv "-filename" (fun t => t) anything "out.csv" (s_filename s) /\
  setting argv "-tensorfile" (fun t => t) anything "test" (s_tensorfile s) /\
  setting argv "-colmin" atof anything (nlit (1 # 2)) (s_colmin s) /\
  setting argv "-colmax" atof anything (nlit (9 # 10)) (s_colmax s) /\
  setting argv "-rationoise" atof (at_least (nlit 0)) (nlit (1 # 100)) (s_rationoise s).
Proof. intros N atof argv. cbv zeta. unfold test_ALS_settings. cbn [s_model s_tensor s_pp s_percentage s_dim s_maxiter s_timelimit s_size s_rank s_updaterank s_issparse s_resprint s_randomsvd s_tol s_pp_res_tol s_lambda s_magni s_filename s_tensorfile s_colmin s_colmax s_rationoise]. opts. Qed.
Theorem C36_pp_bench_settings : forall (N : num) (atof : string -> N) (argv : list string),
  let s := pp_bench_settings atof argv in
  setting argv "-model" (fun t => t) starts_CT "CP" (s_model s) /\
  setting argv "-tensor" (fun t => t) anything "p" (s_tensor s) /\
  setting argv "-pp" atoi (between 0 1) 0%Z (s_pp s) /\
  setting argv "-dim" atoi nonneg 8%Z (s_dim s) /\
  setting argv "-maxiter" atoi nonneg 5000%Z (s_maxiter s) /\
  setting argv "-timelimit" atof (at_least (nlit 0)) (nlit 5000) (s_timelimit s) /\
  setting argv "-size" atoi nonneg 10%Z (s_size s) /\
  setting argv "-rank" atoi (between 0 (s_size s)) (Z.quot (s_size s) 2) (s_rank s) /\
  setting argv "-issparse" atoi (between 0 1) 0%Z (s_issparse s) /\
  setting argv "-resprint" atoi nonneg 10%Z (s_resprint s) /\
  setting argv "-tol" atof in01 (nlit (1 # 10000000000)) (s_tol s) /\
  setting argv "-pp_res_tol" atof in01 (nlit (1 # 100)) (s_pp_res_tol s) /\
  setting argv "-lambda" atof (at_least (nlit 0)) (nlit 0) (s_lambda s) /\
  setting argv "-magni" atof (at_least (nlit 0)) (nlit 1) (s_magni s) /\
  setting argv "-filename" (fun t => t) anything "out.csv" (s_filename s) /\
  setting argv "-colmin" atof anything (nlit (1 # 2)) (s_colmin s) /\
  setting argv "-colmax" atof anything (nlit (9 # 10)) (s_colmax s) /\
  setting argv "-rationoise" atof (at_least (nlit 0)) (nlit (1 # 100)) (s_rationoise s).
Proof. intros N atof argv. cbv zeta. unfold pp_bench_settings. cbn [s_model s_tensor s_pp s_percentage s_dim s_maxiter s_timelimit s_size s_rank s_updaterank s_issparse s_resprint s_randomsvd s_tol s_pp_res_tol s_lambda s_magni s_filename s_tensorfile s_colmin s_colmax s_rationoise]. opts. Qed.

(** so the integer settings are in range for every command line *)
Theorem C36_run_in_range : forall (N : num) (atof : string -> N) (argv : list string),
  let s := run_settings atof argv in
  (0 <= s_pp s)%Z /\ (0 <= s_dim s)%Z /\ (0 <= s_maxiter s)%Z /\ (0 <= s_size s)%Z /\ (0 <= s_rank s)%Z /\ (0 <= s_updaterank s)%Z /\
  (0 <= s_issparse s <= 1)%Z /\ (0 <= s_resprint s)%Z /\ (0 <= s_randomsvd s <= 1)%Z /\ starts_CT (s_model s).
Proof.
  intros N atof argv s. pose proof (C36_run_settings N atof argv) as H. cbv zeta in H. fold s in H.
  destruct H as (H1 & _ & H2 & _ & H3 & H4 & _ & H5 & H6 & H7 & H8 & H9 & H10 & _).
  assert (D1 : forall y, nonneg y \/ ~ nonneg y) by (intros y; unfold nonneg; lia).
  assert (D2 : forall y, between 0 1 y \/ ~ between 0 1 y) by (intros y; unfold between; lia).
  assert (K5 : nonneg (s_size s)) by (apply (setting_ok _ _ _ _ _ _ D1 H5); unfold nonneg; lia).
  assert (KQ : nonneg (Z.quot (s_size s) 2)) by (unfold nonneg in *; apply Z.quot_pos; lia).
  split; [apply (setting_ok _ _ _ _ _ _ D1 H2); unfold nonneg; lia|].
  split; [apply (setting_ok _ _ _ _ _ _ D1 H3); unfold nonneg; lia|].
  split; [apply (setting_ok _ _ _ _ _ _ D1 H4); unfold nonneg; lia|].
  split; [exact K5|].
  split; [apply (setting_ok _ _ _ _ _ _ D1 H6); exact KQ|].
  split; [apply (setting_ok _ _ _ _ _ _ D1 H7); exact KQ|].
  split; [apply (setting_ok _ _ _ _ _ _ D2 H8); unfold between; lia|].
  split; [apply (setting_ok _ _ _ _ _ _ D1 H9); unfold nonneg; lia|].
  split; [apply (setting_ok _ _ _ _ _ _ D2 H10); unfold between; lia|].
  assert (D3 : forall m, starts_CT m \/ ~ starts_CT m).
  { intros m. destruct (bad_model m) eqn:E; [right; intros Hm; apply (proj2 (model_ok m)) in Hm; congruence|left; apply (proj1 (model_ok m)); auto]. }
  apply (setting_ok _ _ _ _ _ _ D3 H1). left. reflexivity.
Qed.
(** an integer typed in decimal is read back *)
Theorem C36_decimal : forall z : Z, (- 2 ^ 31 <= z < 2 ^ 31)%Z -> atoi (decimal z) = z.
Proof. exact atoi_decimal. Qed.
(** every integer token: leading blanks, an optional sign, the longest run of digits, then anything *)
Theorem C36_tokens : forall (blanks digits rest : string) (y : Z),
  all_chars blank blanks -> all_chars is_digit digits -> ~ starts_with is_digit rest ->
  (as_int (- value digits) y -> atoi (blanks ++ "-" ++ digits ++ rest) = y) /\
  (as_int (value digits) y -> atoi (blanks ++ "+" ++ digits ++ rest) = y) /\
  (as_int (value digits) y -> (digits = "" -> ~ starts_with blank rest /\ ~ starts_with signed rest) -> atoi (blanks ++ digits ++ rest) = y).
Proof. exact atoi_tokens. Qed.
(** two blanks, a number with a tail; 2^32 + 5 is read as 5; a number beyond 64 bits as -1 *)
Theorem C36_tokens_case :
  all_chars blank "  " /\ all_chars is_digit "12" /\ ~ starts_with is_digit "e3" /\ value "12" = 12%Z /\ as_int (value "12") 12 /\ atoi "  12e3" = 12%Z /\
  as_int (value "4294967301") 5 /\ atoi "4294967301" = 5%Z /\ as_int (value "9223372036854775808") (-1) /\ atoi "9223372036854775808" = (-1)%Z /\ atoi " - 5" = 0%Z.
Proof.
  assert (B : blank " "%char) by (left; reflexivity). split; [cbn; auto|]. split; [cbn; unfold is_digit; cbn [In]; auto 12|].
  split. { intros (c & r & E & H). injection E as <- _. repeat (destruct H as [H|H]; [discriminate|]). destruct H. }
  split; [reflexivity|]. split; [split; [lia|exists 0%Z; reflexivity]|]. split; [reflexivity|]. split; [split; [lia|exists 1%Z; reflexivity]|]. split; [reflexivity|].
  split; [split; [lia|exists (2 ^ 31)%Z; reflexivity]|]. split; reflexivity.
Qed.
Print Assumptions C36_tokens.
Print Assumptions C36_tokens_case.
Theorem C36_case : let s := run_settings (fun _ => 0%Z : Znum) ["run"; "-dim"; "3"; "-pp"; "-7"; "-size"; "x"; "-dim"; "5"; "-rank"] in
  s_dim s = 3%Z /\ s_pp s = 0%Z /\ s_size s = 0%Z /\ s_rank s = 0%Z /\ decimal (-7) = "-7".
Proof. vm_compute. repeat split; reflexivity. Qed.
Print Assumptions C36_run_settings.
Print Assumptions C36_test_ALS_settings.
Print Assumptions C36_pp_bench_settings.
Print Assumptions C36_run_in_range.
Print Assumptions C36_decimal.
Print Assumptions C36_case.
