(** C68: quality of hosvd, and of what the program test_ALS computes for the Tucker model *)
From Coq Require Import List ZArith QArith Reals Lra Lia Bool Arith String Ascii.
From Verif Require Import Base Num NumR Tensor Spec Spec2 Spec3 Spec4 Spec5 Spec7 Spec8 Spec9 Spec12 Spec13 Spec14 Spec15 Spec18 MCommon MCP MTucker MGen MRun MMains PBase PTensor PSum PMttkrp PMat PMatAlg PGrad PTtm PTucker PSign PTSweep
  PPPDriver PTuckFit PKyFan PTuckMono PHosvdQ PTuckAny PropTucker PropTucker2 PropMains PropMains2 PropTucker3.
Import ListNotations.
Local Close Scope Q_scope.
Local Close Scope R_scope.
Local Open Scope nat_scope.

(** for given orthonormal factors, V contracted with the factors is the best core: any other core C adds the squared distance of the cores *)
Theorem C68_core_is_best : forall (N : num), ring_laws N -> forall (V C : tensor N) (W : list (tensor N)) (ranks : list nat),
  tucker_ok V W ranks -> ortho_factors W ranks -> lens C = ranks ->
  sumsq (msub (tucker_full C W) V) = nadd (tucker_resid2 V W)
    (bigsum (all_idx ranks) (fun y => nmul (nsub (at_ (tucker_core V W) y) (at_ C y)) (nsub (at_ (tucker_core V W) y) (at_ C y)))).
Proof. intros N RL V C W ranks. apply (best_core RL). Qed.
Print Assumptions C68_core_is_best.

(** P and C approximate V with the given ranks: any factors, any core *)
Definition tucker_approx (V : tensor Rnum) (ranks : list nat) (P : list (tensor Rnum)) (C : tensor Rnum) : Prop :=
  tucker_ok V P ranks /\ lens C = ranks.
Lemma approx_le (V C : tensor Rnum) P ranks : tucker_approx V ranks P C -> ranks_ok (lens V) ranks ->
  exists Q, tucker_ok V Q ranks /\ ortho_factors Q ranks /\ (tucker_resid2 V Q <= sumsq (msub (tucker_full C P) V))%R.
Proof.
  intros (H1 & H3) [_ HR]. destruct (tucker_any V C P ranks H1 (fun m Hm => proj2 (HR m Hm)) H3) as (Q & C' & HQ & HO & LC & E).
  exists Q. split; [exact HQ|]. split; [exact HO|]. rewrite <- E. rewrite (best_core Rnum_ring V Q C' ranks) by auto.
  assert (0 <= core_gap V Q C' ranks)%R by (apply bigsum_nonneg; intros; apply Rle_0_sqr). 
  change (tucker_resid2 V Q <= tucker_resid2 V Q + core_gap V Q C' ranks)%R. lra.
Qed.
Lemma sqrt_bound (a b c : R) : (0 <= c)%R -> (0 <= b)%R -> (a <= c * b)%R -> (sqrt a <= sqrt c * sqrt b)%R.
Proof. intros Hc Hb H. rewrite <- sqrt_mult by auto. apply sqrt_le_1_alt. auto. Qed.
(** hosvd: the error is at most sqrt(order) times that of any Tucker approximation with the same ranks, whatever its factors (orthonormal or not) and core *)
Theorem C68_hosvd :
  forall (LA : lapack Rnum), svd_trunc_shaped (svd LA) ->
  forall (V : tensor Rnum) (F : list (tensor Rnum)) (ranks : list nat),
  wf V -> order V <= 18 -> List.length F = order V -> ranks_ok (lens V) ranks ->
  (forall n, n < order V -> leading_svd (svd LA) (unfold_gram V n) (nth n (lens V) 0) (nth n ranks 0)) ->
  exists core W, hosvd LA V F ranks = Ok (core, W) /\ core = tucker_core V W /\ ortho_factors W ranks /\
    forall P C, tucker_approx V ranks P C ->
      (norm2 (msub (tucker_full core W) V) <= sqrt (INR (order V)) * norm2 (msub (tucker_full C P) V))%R.
Proof.
  intros LA HS V F ranks HV Ho LF HR Hl.
  destruct (C32_hosvd Rnum Rnum_ring LA HS V F ranks HV Ho LF HR) as (core & W & E & EW & HW & EC).
  assert (HL : forall n, n < order V -> lead_cols (fac W n) (unfold_gram V n) (nth n (lens V) 0) (nth n ranks 0)).
  { intros n Hn. rewrite EW. rewrite fac_map_seq by auto. apply leading_lead. auto. }
  exists core, W. split; [exact E|]. split; [exact EC|].
  assert (HO : ortho_factors W ranks).
  { intros m Hm. assert (Hm' : m < order V) by (destruct HW as (_ & LW & _); lia). apply (best_ttm V (fac W m) m (nth m ranks 0) Hm'); auto. apply HR. exact Hm'. }
  split; [exact HO|]. intros P C HP. rewrite EC, !norm2_sumsq by apply tabulate_wf. apply sqrt_bound; [apply pos_INR|apply sumsq_nonneg|].
  destruct (approx_le V C P ranks HP HR) as (Q & HQ1 & HQ2 & HQ3). destruct (hosvd_quality V W Q ranks HW HR HL HQ1 HQ2) as [_ H].
  eapply Rle_trans; [exact H|]. apply Rmult_le_compat_l; [apply pos_INR|]. exact HQ3.
Qed.
Print Assumptions C68_hosvd.

(** the program test_ALS with -model Tucker and -pp 0 (hosvd, then exact sweeps) or -pp 2 (hosvd only): the factors it ends with are
    orthonormal, and their error is at most sqrt(order) times that of any Tucker approximation with the ranks of the command line *)
Theorem C68_test_ALS :
  forall (LA : lapack Rnum), svd_trunc_shaped (svd LA) ->
  forall (atof : string -> R) (clock : nat -> R) (rank0 same : bool) (env : environment (N:=Rnum)) (trunc : R -> nat) (fuel base tf rounds : nat)
    (argv : list string) (x : io (N:=Rnum)) (V : tensor Rnum),
  let st := test_ALS_settings (N:=Rnum) atof argv in
  let ranks := program_ranks (s_tensor st) (order V) (Z.to_nat (s_rank st)) in
  let start := map (fun i => lsv (svd LA) (unfold_gram V i) (nth i ranks 0)) (seq 0 (order V)) in
  String.get 0 (s_model st) = Some "T"%char -> s_pp st = 0%Z \/ s_pp st = 2%Z ->
  run_tensor env fuel st = Ok V -> wf V -> tucker_orders (s_pp st) (order V) -> order V < tf ->
  s_resprint st <> 0%Z -> ranks_ok (lens V) ranks ->
  (forall n, n < order V -> leading_svd (svd LA) (unfold_gram V n) (nth n (lens V) 0) (nth n ranks 0)) ->
  (s_pp st = 0%Z -> leading_along (svd LA) V ranks start) ->
  exists ret core W y,
    test_ALS (N:=Rnum) atof LA clock rank0 env trunc fuel base tf rounds same argv x = Ok (Tucker_done ret core W y) /\
    core = tucker_core V W /\ tucker_ok V W ranks /\ ortho_factors W ranks /\
    forall P C, tucker_approx V ranks P C ->
      (norm2 (msub (tucker_full core W) V) <= sqrt (INR (order V)) * norm2 (msub (tucker_full C P) V))%R.
Proof.
  intros LA HS atof clock rank0 same env trunc fuel base tf rounds argv x V st ranks start HT Hpp EV HV Ho Htf Hrp HR Hl Hla.
  rewrite (C61_test_ALS_tucker Rnum Rnum_ring Rsqrt_nonneg LA HS atof clock rank0 same env trunc fuel base tf rounds argv x V) by auto.
  fold st ranks. assert (H18 : order V <= 18). { unfold tucker_orders in Ho. destruct Hpp as [E|E]; rewrite E in Ho; lia. }
  destruct (C68_hosvd LA HS V (repeat tnil (order V)) ranks HV H18 (repeat_length _ _) HR Hl) as (core & W & Eh & EC & HO & HB).
  destruct (C32_hosvd Rnum Rnum_ring LA HS V (repeat tnil (order V)) ranks HV H18 (repeat_length _ _) HR) as (core' & W' & Eh' & EW & HW & _).
  rewrite Eh in Eh'. injection Eh' as <- <-.
  unfold tucker_program. fold ranks start. destruct Hpp as [E|E]; rewrite E.
  - rewrite E in Ho. cbn [tucker_orders] in Ho.
    assert (LC : lens (tucker_core V start) = ranks) by (unfold start; rewrite <- EW; apply (core_lens V W ranks HW)).
    assert (HWs : tucker_ok V start ranks) by (unfold start; rewrite <- EW; exact HW). assert (HOs : ortho_factors start ranks) by (unfold start; rewrite <- EW; exact HO).
    assert (Hmi : (0 <= s_maxiter st)%Z) by (apply (test_ALS_in_range (N:=Rnum) atof argv)).
    pose proof (C60_alsTucker_DT_is_the_algorithm Rnum Rnum_ring Rsqrt_nonneg LA HS clock rank0 V (tucker_core V start) start ranks
      (nmul (s_tol st : Rnum) (norm2 V)) (s_timelimit st) (s_maxiter st) (s_resprint st) false tf x Ho Htf Hrp HWs HR LC) as E60.
    destruct (C54_dimension_tree_run Rnum Rnum_ring Rsqrt_nonneg LA HS clock rank0 V (tucker_core V start) start ranks
      (nmul (s_tol st : Rnum) (norm2 V)) (s_timelimit st) (s_maxiter st) (s_resprint st) false tf x Ho Htf Hmi Hrp HWs HR LC) as (k & stopped & sf & E54 & _ & EWf & ECf & _).
    rewrite E60 in E54. injection E54 as E54. destruct (tdt_algorithm _ _ _ _ _ _ _ _ _ _ _ _ _) as [ret kf]. injection E54 as -> ->.
    exists (Some stopped), (kcore sf), (kW sf), (kio sf). rewrite EWf in *.
    split; [reflexivity|]. split; [exact ECf|]. split; [apply (Wf_ok (svd LA) V ranks start HR HWs (Hla E))|].
    split; [apply (Wf_ortho (svd LA) V ranks start HR HWs (Hla E)); right; exact HOs|]. intros P C HP.
    eapply Rle_trans; [|apply (HB P C HP)].
    assert (Hres := Wf_resid (svd LA) V ranks start HR HWs (Hla E) 0 k (or_intror HOs) (Nat.le_0_l k)). unfold tucker_resid in Hres.
    rewrite ECf. eapply Rle_trans; [exact Hres|]. cbn [Nat.iter nat_rect]. rewrite EC. rewrite EW. apply Rle_refl.
  - assert (Est : start = W) by (unfold start; rewrite <- EW; reflexivity). rewrite Est.
    exists None, (tucker_core V W), W, x. split; [reflexivity|]. split; [reflexivity|]. split; [exact HW|]. split; [exact HO|]. rewrite <- EC. exact HB.
Qed.
Print Assumptions C68_test_ALS.
(** *** a case: test_ALS on V = diag(2,1) with -rank 1 *)
Definition qargv : list string := ["./test_ALS"; "-tensor"; "r2"; "-dim"; "2"; "-size"; "2"; "-rank"; "1"; "-model"; "T"; "-maxiter"; "3"]%string.
Definition qenv : environment (N:=Rnum) := mkEnv (N:=Rnum) (fun _ ls => qV) all_pairs (fun _ ls => zeros ls).
Lemma q_gram n : n < 2 -> unfold_gram qV n = @mkT Rnum [2; 2] [4; 0; 0; 1]%R.
Proof. intros Hn. destruct n as [|[|n]]; [..|lia]; qcalc; f_equal; repeat (apply f_equal2; [ring|]); reflexivity. Qed.
Lemma q_leading2 : leading_svd (svd LAid) (@mkT Rnum [2; 2] [4; 0; 0; 1]%R) 2 1.
Proof.
  exists (qI 2 2), (@mkT Rnum [2] [4; 1]%R), (qI 2 2).
  assert (E1 : mmul (qI 2 2) (qI 2 2) = mid 2) by (qcalc; f_equal; repeat (apply f_equal2; [ring|]); reflexivity).
  assert (E2 : mtrans (qI 2 2) = qI 2 2) by reflexivity.
  split; [|split; [|split; [|split]]].
  - split; [split; reflexivity|]. split; [reflexivity|]. split; [reflexivity|]. split; [split; reflexivity|]. rewrite E2, E1.
    split; [|auto]. qcalc. f_equal. repeat (apply f_equal2; [ring|]). reflexivity.
  - intros i Hi. apply Rnle. destruct i as [|[|i]]; [cbn; lra|cbn; lra|lia].
  - intros i j Hij. apply Rnle. destruct i as [|[|i]], j as [|[|j]]; cbn; try lia; lra.
  - split; reflexivity.
  - intros a j Ha Hj. destruct a as [|[|a]], j as [|j]; try lia; reflexivity.
Qed.
Lemma q_along : leading_along (svd LAid) qV [1; 1] [qc 1 0; qc 1 0].
Proof.
  assert (I : forall j, Nat.iter j (hooi_sweep (svd LAid) qV [1; 1]) [qc 1 0; qc 1 0] = [qc 1 0; qc 1 0]).
  { induction j as [|j E]; [reflexivity|]. change (Nat.iter (S j) (hooi_sweep (svd LAid) qV [1; 1]) [qc 1 0; qc 1 0])
      with (hooi_sweep (svd LAid) qV [1; 1] (Nat.iter j (hooi_sweep (svd LAid) qV [1; 1]) [qc 1 0; qc 1 0])). rewrite E. apply q_sweep. }
  intros j n Hn. rewrite I. change (order qV) with 2 in Hn. destruct n as [|[|n]]; [..|lia].
  - unfold hooi_upto. cbn [seq fold_left nth lens qV]. fold qV. rewrite q_req0. apply q_leading. lra.
  - unfold hooi_upto. cbn [seq fold_left nth lens qV]. fold qV. rewrite q_sweep0, q_req1. apply q_leading. lra.
Qed.
Theorem C68_case :
  let st := test_ALS_settings (N:=Rnum) (fun _ => 0%R) qargv in
  let ranks := program_ranks (s_tensor st) (order qV) (Z.to_nat (s_rank st)) in
  let start := map (fun i => lsv (svd LAid) (unfold_gram qV i) (nth i ranks 0)) (seq 0 (order qV)) in
  String.get 0 (s_model st) = Some "T"%char /\ s_pp st = 0%Z /\ run_tensor qenv 5 st = Ok qV /\ wf qV /\ tucker_orders (s_pp st) (order qV) /\
  s_resprint st <> 0%Z /\ ranks_ok (lens qV) ranks /\
  (forall n, n < order qV -> leading_svd (svd LAid) (unfold_gram qV n) (nth n (lens qV) 0) (nth n ranks 0)) /\
  leading_along (svd LAid) qV ranks start /\
  tucker_approx qV ranks [qc 1 1; qc 1 1] (@mkT Rnum [1; 1] [1%R]) /\ ~ ortho_factors [qc 1 1; qc 1 1] ranks /\
  tucker_resid2 qV start = 1%R /\ sumsq (msub (tucker_full (@mkT Rnum [1; 1] [1%R]) [qc 1 1; qc 1 1]) qV) = 3%R.
Proof.
  cbv zeta. assert (ER : program_ranks (s_tensor (test_ALS_settings (N:=Rnum) (fun _ => 0%R) qargv)) (order qV) (Z.to_nat (s_rank (test_ALS_settings (N:=Rnum) (fun _ => 0%R) qargv))) = [1; 1]) by reflexivity.
  rewrite ER. change (order qV) with 2.
  assert (ES : map (fun i => lsv (svd LAid) (unfold_gram qV i) (nth i [1; 1] 0)) (seq 0 2) = [qc 1 0; qc 1 0]).
  { cbn [map seq]. rewrite !q_gram by lia. reflexivity. }
  rewrite ES.
  split; [reflexivity|]. split; [reflexivity|]. split; [reflexivity|]. split; [reflexivity|]. split; [left; reflexivity|]. split; [discriminate|].
  split; [split; [reflexivity|]; intros m Hm; cbn in Hm; destruct m as [|[|m]]; cbn; lia|].
  split; [intros n Hn; rewrite q_gram by auto; destruct n as [|[|n]]; [apply q_leading2|apply q_leading2|lia]|].
  split; [exact q_along|]. split; [|split; [|split]].
  - split; [|reflexivity]. split; [reflexivity|]. split; [reflexivity|]. split; [reflexivity|]. intros m Hm. cbn in Hm. destruct m as [|[|m]]; try lia; split; reflexivity.
  - intros H. specialize (H 0 ltac:(cbn; lia)). unfold ortho_cols in H. assert (E : el (mmul (mtrans (qc 1 1)) (qc 1 1)) 0 0 = 1%R) by (cbn [fac nth] in H; rewrite H; reflexivity). revert E. qcalc. lra.
  - qcalc. lra.
  - qcalc. lra.
Qed.
Print Assumptions C68_case.
