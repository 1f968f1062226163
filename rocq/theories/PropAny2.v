(** C90: no Tucker driver fails or changes a shape, whatever the numbers (overflow, NaN, division by zero, lost associativity) *)
From Coq Require Import List ZArith QArith Lia Bool Arith SpecFloat.
From Verif Require Import Base Num NumF Tensor Spec Spec2 Spec7 Spec23 MCommon MCP MTucker PBase PTensor PPar PPar7 PPar8 PPar9 PPar10 PPar11 PropNan PropAny.
Import ListNotations.
Local Close Scope Q_scope.

Section C90.
Context {N : num} (LA : lapack N) (Hsvd : svd_trunc_shaped (svd LA)) (clk : nat -> N) (rank0 : bool) (limit : N).
Context (V : tensor N) (ranks : list nat) (Hr : ranks_ok (lens V) ranks).
Notation o := (order V).

Theorem C90_hosvd : forall F, wf V -> 2 <= o <= 18 -> length F = o ->
  exists core W, hosvd LA V F ranks = Ok (core, W) /\ tucker_ok V W ranks /\ lens core = ranks /\ wf core.
Proof. intros. apply (hosvd_any LA Hsvd); auto. Qed.

Theorem C90_plain : forall core W tol maxiter x, 2 <= o <= 10 -> tucker_ok V W ranks -> lens core = ranks -> (0 <= maxiter)%Z ->
  exists ret st k, alsTucker LA clk V core W tol limit maxiter x = Ok (ret, st) /\
    tucker_ok V (kW st) ranks /\ lens (kcore st) = ranks /\ (Z.of_nat k <= maxiter + 1)%Z /\
    (if ret then (Z.of_nat k <= maxiter)%Z /\
       (nltb (kdn st) tol = true \/ nltb limit (nsub (clk (ck (kio st) - 1)) (st_time (kio st))) = true)
     else Z.of_nat k = (maxiter + 1)%Z).
Proof.
  intros core W tol maxiter x Ho HW HC Hm.
  destruct (alsTucker_any LA Hsvd clk limit V ranks (proj1 HW) Ho Hr core W tol maxiter x HW HC Hm) as (ret & st & k & E & (H1 & H2 & _) & H3 & H4).
  exists ret, st, k. auto.
Qed.

Theorem C90_dimension_tree : forall fuel core W tol maxiter resprint bench x, o = 2 \/ o = 4 \/ 6 <= o <= 10 -> o < fuel ->
  tucker_ok V W ranks -> lens core = ranks -> (0 <= maxiter)%Z -> resprint <> 0%Z ->
  exists ret st k, alsTucker_DT LA clk rank0 fuel V core W tol limit maxiter resprint bench x = Ok (ret, st) /\
    tucker_ok V (kW st) ranks /\ lens (kcore st) = ranks /\ (Z.of_nat k <= maxiter + 1)%Z /\
    (if ret then (Z.of_nat k <= maxiter)%Z /\
       (nltb (kdn st) tol = true \/ nltb limit (nsub (clk (ck (kio st) - 1)) (st_time (kio st))) = true)
     else Z.of_nat k = (maxiter + 1)%Z).
Proof.
  intros fuel core W tol maxiter resprint bench x Ho Hf HW HC Hm Hp.
  destruct (alsTucker_DT_any LA Hsvd clk rank0 limit V ranks (proj1 HW) ltac:(lia) Hr fuel core W tol maxiter resprint bench x) as (ret & st & k & E & (H1 & H2 & _) & H3 & H4); auto; [lia|].
  exists ret, st, k. auto.
Qed.

(** with pairwise perturbation the driver may loop for ever: LoopFuel is "still running after wf rounds" *)
Theorem C90_pairwise_perturbation : forall wf fuel core W tol tol_init maxiter resprint (bench : bool) x,
  (if bench then 3 <= o <= 9 else o = 4 \/ 6 <= o <= 9) -> o < fuel -> resprint <> 0%Z -> tucker_ok V W ranks -> lens core = ranks ->
  let run := alsTucker_PP LA clk rank0 wf fuel V core W tol tol_init limit maxiter resprint bench x in
  run = Err LoopFuel \/
  exists ret p, run = Ok (ret, p) /\ tucker_ok V (kW p) ranks /\ lens (kcore p) = ranks /\
    length (kdW p) = o /\ forall m, m < o -> is_mat (fac (kdW p) m) (nth m (lens V) 0) (nth m ranks 0).
Proof.
  intros wf fuel core W tol tol_init maxiter resprint bench x Ho Hf Hp HW HC run.
  destruct (alsTucker_PP_any LA Hsvd clk rank0 limit V ranks (proj1 HW) ltac:(destruct bench; lia) Hr wf fuel core W tol tol_init maxiter resprint bench x Ho Hf Hp HW HC)
    as [E|(ret & p & E & (H1 & H2 & _) & H3 & H4)]; [left; exact E|right]. exists ret, p. auto.
Qed.

(** initialised by hosvd, as in the test driver *)
Theorem C90_hosvd_then_sweeps : forall F fuel tol maxiter resprint bench x, wf V -> o = 2 \/ o = 4 \/ 6 <= o <= 10 -> o < fuel -> length F = o ->
  (0 <= maxiter)%Z -> resprint <> 0%Z ->
  exists core W ret st, hosvd LA V F ranks = Ok (core, W) /\
    alsTucker_DT LA clk rank0 fuel V core W tol limit maxiter resprint bench x = Ok (ret, st) /\ tucker_ok V (kW st) ranks /\ lens (kcore st) = ranks.
Proof.
  intros F fuel tol maxiter resprint bench x HV Ho Hf HF Hm Hp. destruct (C90_hosvd F HV ltac:(lia) HF) as (core & W & E & HW & HC & _).
  destruct (C90_dimension_tree fuel core W tol maxiter resprint bench x Ho Hf HW HC Hm Hp) as (ret & st & k & E2 & H1 & H2 & _).
  exists core, W, ret, st. auto.
Qed.
End C90.

(** binary64, a tensor with NaN and -infinity, a decomposition that returns NaN: the hypotheses are met *)
Definition cb_svd (S : tensor cn_N) (k : nat) : tensor cn_N * tensor cn_N * tensor cn_N :=
  ((@mkT cn_N [nrow S; k] (repeat S754_nan (nrow S * (k * 1))), zeros [k]), zeros [k; k]).
Definition cb_LA : lapack cn_N := @mkLapack cn_N cb_svd (fun A => A) (fun A _ _ _ _ => A) (fun A => A) (fun _ l => zeros l).
Definition cb_ranks : list nat := [1; 2; 1; 2].
Definition cb_mat (r : nat) : tensor cn_N := @mkT cn_N [2; r] (S754_nan :: repeat cn_one (2 * r - 1)).
Definition cb_W : list (tensor cn_N) := map cb_mat cb_ranks.
Definition cb_core : tensor cn_N := @mkT cn_N cb_ranks (repeat cn_one 4).
Theorem C90_case : svd_trunc_shaped (svd cb_LA) /\ ranks_ok (lens ca_V) cb_ranks /\ tucker_ok ca_V cb_W cb_ranks /\ lens cb_core = cb_ranks /\
  (exists core W, hosvd cb_LA ca_V (repeat tnil 4) cb_ranks = Ok (core, W) /\ tucker_ok ca_V W cb_ranks) /\
  (exists ret st, alsTucker cb_LA cn_clk ca_V cb_core cb_W (cn_fl 0) (cn_fl 9) 3 (mkIo 0 (cn_fl 0) []) = Ok (ret, st) /\ tucker_ok ca_V (kW st) cb_ranks) /\
  exists ret st, alsTucker_DT cb_LA cn_clk true 10 ca_V cb_core cb_W (cn_fl 0) (cn_fl 9) 3 2 false (mkIo 0 (cn_fl 0) []) = Ok (ret, st) /\ tucker_ok ca_V (kW st) cb_ranks.
Proof.
  assert (Hs : svd_trunc_shaped (svd cb_LA)).
  { intros S n k HS Hk. cbn [svd cb_LA]. unfold cb_svd. assert (E : nrow S = n) by (unfold nrow; rewrite (proj1 HS); reflexivity). rewrite E.
    split; [split; [reflexivity|]|split; [reflexivity|apply (@tabulate_wf cn_N)]]. unfold wf. cbn [lens data]. rewrite repeat_length. cbn. lia. }
  assert (Hr : ranks_ok (lens ca_V) cb_ranks).
  { split; [reflexivity|]. intros m Hm. cbn in Hm. do 4 (destruct m as [|m]; [cbn; lia|]). lia. }
  assert (HW : tucker_ok ca_V cb_W cb_ranks).
  { split; [reflexivity|]. split; [reflexivity|]. split; [reflexivity|]. intros m Hm. change (order ca_V) with 4 in Hm.
    do 4 (destruct m as [|m]; [split; reflexivity|]). lia. }
  split; [exact Hs|]. split; [exact Hr|]. split; [exact HW|]. split; [reflexivity|]. split; [|split].
  - destruct (C90_hosvd cb_LA Hs ca_V cb_ranks Hr (repeat tnil 4)) as (core & W & E & H & _); auto; [reflexivity|cbn; lia|].
    exists core, W. auto.
  - destruct (C90_plain cb_LA Hs cn_clk (cn_fl 9) ca_V cb_ranks Hr cb_core cb_W (cn_fl 0) 3 (mkIo 0 (cn_fl 0) [])) as (ret & st & k & E & H & _); auto; try lia; try (cbn; lia).
    exists ret, st. auto.
  - destruct (C90_dimension_tree cb_LA Hs cn_clk true (cn_fl 9) ca_V cb_ranks Hr 10 cb_core cb_W (cn_fl 0) 3 2 false (mkIo 0 (cn_fl 0) [])) as (ret & st & k & E & H & _); auto; try lia; try (cbn; lia).
    exists ret, st. auto.
Qed.
