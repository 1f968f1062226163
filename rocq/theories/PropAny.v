(** C89: no CP driver fails or changes a shape, whatever the numbers (overflow, NaN, division by zero, lost associativity) *)
From Coq Require Import List ZArith QArith Lia Bool Arith SpecFloat.
From Verif Require Import Base Num NumF Tensor Spec Spec2 Spec23 MCommon MCP PBase PTensor PDrivers PPPDriver PPar PPar2 PPar3 PPar4 PPar5 PPar6 PropNan.
Import ListNotations.
Local Close Scope Q_scope.

Section C89.
Context {N : num} (LA : lapack N) (Hsh : svd_shaped (svd LA)) (clk : nat -> N) (rank0 : bool) (limit : N).
Context (V : tensor N) (R : nat).
Notation o := (order V).

Theorem C89_direct : forall W G F tol maxiter s x, 2 <= o <= 10 -> lens V = repeat s o ->
  factors_ok V W R -> mats_ok V F R -> mats_ok V G R -> (0 <= maxiter)%Z ->
  exists ret st k, alsCP LA clk V W G F tol limit maxiter x = Ok (ret, st) /\
    factors_ok V (aW st) R /\ mats_ok V (aG st) R /\ (Z.of_nat k <= maxiter + 1)%Z /\
    (if ret then (Z.of_nat k <= maxiter)%Z /\
       (nltb (apn st) tol = true \/ nltb limit (nsub (clk (ck (aio st) - 1)) (st_time (aio st))) = true)
     else Z.of_nat k = (maxiter + 1)%Z).
Proof. intros. apply (alsCP_any LA Hsh clk limit V R W G F tol maxiter s x); auto. Qed.

Theorem C89_dimension_tree : forall W G F tol maxiter lambda resprint bench fuel x, o = 4 \/ 6 <= o <= 19 -> o < fuel ->
  factors_ok V W R -> mats_ok V F R -> mats_ok V G R -> (0 <= maxiter)%Z -> resprint <> 0%Z ->
  exists ret st k, alsCP_DT LA clk rank0 fuel V W G F tol limit maxiter lambda resprint bench x = Ok (ret, st) /\
    factors_ok V (dtW st) R /\ mats_ok V (dtG st) R /\ (Z.of_nat k <= maxiter + 1)%Z /\
    (if ret then (Z.of_nat k <= maxiter)%Z /\
       (nltb (dtpn st) tol = true \/ nltb limit (nsub (clk (ck (dtio st) - 1)) (st_time (dtio st))) = true)
     else Z.of_nat k = (maxiter + 1)%Z).
Proof. intros. apply (alsCP_DT_any LA Hsh clk rank0 limit V R W G F tol maxiter lambda resprint bench fuel x); auto. Qed.

(** with pairwise perturbation the driver may loop for ever (C19): LoopFuel is "still running after wf rounds" *)
Theorem C89_pairwise_perturbation : forall wf fuel same W G tol tol_init maxiter lambda ratio resprint (bench : bool) x,
  (if bench then 3 <= o <= 9 else o = 4 \/ 6 <= o <= 9) -> o < fuel -> resprint <> 0%Z -> factors_ok V W R -> mats_ok V G R ->
  let run := alsCP_PP LA clk rank0 wf fuel same V W G tol tol_init limit maxiter lambda ratio resprint bench x in
  run = Err LoopFuel \/
  exists ret p, run = Ok (ret, p) /\ factors_ok V (pW p) R /\ mats_ok V (pG p) R /\ mats_ok V (pdW p) R.
Proof. intros. apply (alsCP_PP_any LA Hsh); auto. Qed.
Theorem C89_partial_update : forall wf fuel same W G tol tol_init maxiter lambda ratio size resprint (bench : bool) x,
  (if bench then 3 <= o <= 9 else o = 4 \/ 6 <= o <= 9) -> size <= o -> o < fuel -> resprint <> 0%Z -> factors_ok V W R -> mats_ok V G R ->
  let run := alsCP_PP_partupdate LA clk rank0 wf fuel same V W G tol tol_init limit maxiter lambda ratio size resprint bench x in
  run = Err LoopFuel \/
  exists ret p, run = Ok (ret, p) /\ factors_ok V (pW p) R /\ mats_ok V (pG p) R /\ mats_ok V (pdW p) R.
Proof. intros. apply (alsCP_PU_any LA Hsh); auto. Qed.
End C89.

(** binary64, a tensor of zeros: alsCP_DT completes; it returns false with no finite number in any factor, or true after the time limit *)
Section F.
Context (root : nat -> spec_float -> spec_float) (Hroot : pow_contract root).
Notation N := (F64 root).
Theorem C89_zero_tensor : forall (LA : lapack N) clk rank0 fuel (V : tensor N) R W G F tol limit maxiter lambda resprint bench x,
  svd_shaped (svd LA) -> order V = 4 \/ 6 <= order V <= 19 -> order V < fuel -> (forall n, In n (lens V) -> 0 < n) -> 0 < R ->
  factors_ok V W R -> mats_ok V F R -> mats_ok V G R -> all_zero V -> (forall T, In T F -> all_zero T) ->
  (2 <= maxiter)%Z -> (2 <= resprint)%Z -> nltb (measured G) tol = false ->
  exists ret st, alsCP_DT LA clk rank0 fuel V W G F tol limit maxiter lambda resprint bench x = Ok (ret, st) /\
    factors_ok V (dtW st) R /\
    if ret then exists n s, nltb limit (nsub (clk n) s) = true else forall T, In T (dtW st) -> lost T.
Proof.
  intros LA clk rank0 fuel V R W G F tol limit maxiter lambda resprint bench x Hsh Ho Hf HV HR HW HF HG HZ HFz Hm Hp Ht.
  destruct (C89_dimension_tree LA Hsh clk rank0 limit V R W G F tol maxiter lambda resprint bench fuel x) as (ret & st & k & E & H1 & _); auto; try lia.
  exists ret, st. split; [exact E|]. split; [exact H1|].
  assert (HWp : proper W).
  { intros T HT. destruct (In_nth _ _ tnil HT) as (m & Hm' & <-). destruct HW as (_ & Hl & HWm). destruct (HWm m ltac:(lia)) as [E1 E2]. unfold fac in E1, E2.
    split; [exact E2|]. unfold order. rewrite E1. split; [reflexivity|]. intros n [<-|[<-|[]]]; [|exact HR]. apply HV, nth_In. change (length (lens V)) with (order V). lia. }
  destruct (C79_zero_tensor_run root Hroot LA clk rank0 fuel V W G F tol limit maxiter lambda resprint bench x ret st) as [K1 K2]; auto; try lia.
  { apply HW. }
  destruct ret; [|apply K1; reflexivity]. apply K2; auto. apply HG.
Qed.
End F.

(** the hypotheses are met over binary64 by data containing NaN and infinities *)
Definition ca_svd (S : tensor cn_N) (k : nat) := ((zeros [k; k], zeros [k]), zeros [k; k]) : tensor cn_N * tensor cn_N * tensor cn_N.
Definition ca_LA : lapack cn_N := @mkLapack cn_N ca_svd (fun A => A) (fun A _ _ _ _ => A) (fun A => A) (fun _ l => zeros l).
Definition ca_V : tensor cn_N := @mkT cn_N [2; 2; 2; 2] (S754_nan :: S754_infinity true :: repeat cn_one 14).
Definition ca_F : list (tensor cn_N) := repeat (@mkT cn_N [2; 1] [S754_nan; cn_one]) 4.
Theorem C89_case : svd_shaped (svd ca_LA) /\ factors_ok ca_V cn_W 1 /\ mats_ok ca_V ca_F 1 /\ mats_ok ca_V cn_G 1 /\ lens ca_V = repeat 2 (order ca_V) /\
  (exists ret st, alsCP ca_LA cn_clk ca_V cn_W cn_G ca_F (cn_fl 0) (cn_fl 9) 3 (mkIo 0 (cn_fl 0) []) = Ok (ret, st) /\ factors_ok ca_V (aW st) 1) /\
  exists ret st, alsCP_DT ca_LA cn_clk true 10 ca_V cn_W cn_G ca_F (cn_fl 0) (cn_fl 9) 3 (cn_fl 0) 2 false (mkIo 0 (cn_fl 0) []) = Ok (ret, st) /\ factors_ok ca_V (dtW st) 1.
Proof.
  assert (Hs : svd_shaped (svd ca_LA)).
  { intros S k HS. cbn. repeat split; try apply (@tabulate_wf cn_N). }
  assert (Hm : forall W : list (tensor cn_N), length W = 4 -> (forall T, In T W -> is_mat T 2 1) -> mats_ok ca_V W 1).
  { intros W HL HT. split; [exact HL|]. intros m Hm. change (order ca_V) with 4 in Hm. replace (nth m (lens ca_V) 0) with 2 by (do 4 (destruct m as [|m]; [reflexivity|]); lia).
    apply HT, nth_In. lia. }
  assert (HW : mats_ok ca_V cn_W 1) by (apply Hm; [reflexivity|]; intros T HT; cbn in HT; repeat destruct HT as [<-|HT]; try destruct HT; split; reflexivity).
  assert (HF : mats_ok ca_V ca_F 1) by (apply Hm; [reflexivity|]; intros T HT; cbn in HT; repeat destruct HT as [<-|HT]; try destruct HT; split; reflexivity).
  assert (HG : mats_ok ca_V cn_G 1) by (apply Hm; [reflexivity|]; intros T HT; cbn in HT; repeat destruct HT as [<-|HT]; try destruct HT; split; reflexivity).
  assert (HW' : factors_ok ca_V cn_W 1) by (split; [reflexivity|exact HW]).
  split; [exact Hs|]. split; [exact HW'|]. split; [exact HF|]. split; [exact HG|]. split; [reflexivity|]. split.
  - destruct (C89_direct ca_LA Hs cn_clk (cn_fl 9) ca_V 1 cn_W cn_G ca_F (cn_fl 0) 3 2 (mkIo 0 (cn_fl 0) [])) as (ret & st & k & E & H & _); auto; try lia; try (cbn; lia).
    exists ret, st. auto.
  - destruct (C89_dimension_tree ca_LA Hs cn_clk true (cn_fl 9) ca_V 1 cn_W cn_G ca_F (cn_fl 0) 3 (cn_fl 0) 2 false 10 (mkIo 0 (cn_fl 0) [])) as (ret & st & k & E & H & _); auto; try lia; try (cbn; lia).
    exists ret, st. auto.
Qed.
