(** C76 for the program run *)
From Coq Require Import List ZArith QArith Reals Lra Lia Bool Arith String Ascii.
From Verif Require Import Base Num NumR Tensor Spec Spec3 Spec4 Spec5 Spec6 Spec10 Spec11 Spec18 Spec19 Spec21 MCommon MCP MOpt MOptLR MCPD MGen MRun PBase PTensor PSum PMttkrp PMat PMatAlg PCPD PCPD2 PRun PRun2 PropCPD PropRun PropRun2
  PResid PTuckMono PropTucker3 PConv PConv2 PConv3 PConv4 PropConv PropConv3 PropMono5.
Import ListNotations.
Local Close Scope Q_scope.
Local Open Scope R_scope.
Local Notation RL := Rnum_ring.

(** the program run on a decomposed tensor V, from random factors W: the residual of the factors it ends with is no larger than that of W, and the
    residuals in the log never increase *)
Theorem C76_run :
  forall (atof : string -> Rnum) (LA : lapack Rnum) (clock : nat -> R) (rank0 : bool) (env : environment (N:=Rnum))
    (fuel base base' wf : nat) (argv : list string) (x : io (N:=Rnum)) (m : cpd_method) (V : tensor Rnum),
  let st := run_settings atof argv in
  let size := Z.to_nat (s_size st) in let rk := Z.to_nat (s_rank st) in
  tri_shaped (cholesky LA) (solve_tri LA) -> low_shaped (svd LA) (qr_q LA) (MCommon.rnd LA) ->
  (forall k ls, lens (rng env k ls) = ls /\ Tensor.wf (rng env k ls)) ->
  String.get 0 (s_model st) = Some "C"%char -> class_for st m -> method_ok m (Z.to_nat (s_dim st)) size rk ->
  s_resprint st <> 0%Z -> (2 * (Z.to_nat (s_maxiter st) + 1) <= wf)%nat ->
  PropRun2.decomposes (s_tensor st) ->
  (String.get 0 (s_tensor st) = Some "p"%char -> (1 <= s_size st)%Z /\ exists d, s_dim st = Z.of_nat (2 * d) /\ (2 <= d)%nat) ->
  run_tensor env fuel st = Ok V ->
  let o := Z.to_nat (s_dim st) in
  let W := map (fun i => rng env (base + i) [size; rk]) (seq 0 o) in
  let G := map (fun i => rng env (base' + i) [size; rk]) (seq 0 o) in
  systems_exact m LA (0 : Rnum) V rk W G (2 * (Z.to_nat (s_maxiter st) + 1)) ->
  exists ret W' G' gn rows es,
    run atof LA clock rank0 env fuel base base' wf argv x = Ok (Some (ret, (W', G'), gn, rows)) /\
    factors_ok V W' rk /\ resid_norm V W' rk <= resid_norm V W rk /\
    map crow_residual rows = map Some es /\ nonincreasing (resid_norm V W rk :: es).
Proof.
  intros atof LA clk rank0 env fuel b1 b2 wfu argv x m V st size rk Hsh Hlow Hrng HC Hm Hok Hrp Hwf Hdec Hp E o W G He.
  apply class_method in Hm. apply decomposes_iff in Hdec.
  assert (Hmax : (0 <= s_maxiter st)%Z) by (apply (C36_run_in_range Rnum atof argv)).
  assert (Ho : (2 <= o <= 19)%nat) by (unfold o; clear - Hok; destruct m; cbn [method_ok] in Hok; lia).
  destruct (run_setup RL LA clk rank0 env fuel b1 b2 wfu st x m V Hrng HC Hm Ho Hdec Hp E) as (Erun & HO & HL & HW & HG).
  fold size rk o in Erun, HO, HL, HW, HG. fold W G in Erun. fold W in HW. fold G in HG.
  assert (Hok' : method_ok m (order V) size rk) by (rewrite HO; exact Hok).
  assert (HL' : lens V = repeat size (order V)) by (rewrite HO; exact HL).
  destruct (C76_als LA clk rank0 false V size rk W G 0 m wfu (nmul (s_tol st) (norm2 V)) (s_timelimit st) (s_maxiter st) (s_resprint st) x Hsh Hlow Hok' HL' HW HG Hmax Hrp Hwf He)
    as (ret & W' & G' & gn & rows & Er & HF & Hobj & Hes). rewrite HO in Er.
  destruct (Hes eq_refl eq_refl) as (es & Hes1 & Hes2). exists ret, W', G', gn, rows, es. unfold run. fold st. change (n0 (n:=Rnum)) with 0 in Erun. rewrite Erun, Er. split; [reflexivity|].
  split; [exact HF|]. split; [|split; [exact Hes1|exact Hes2]].
  rewrite !(resid_norm_sqrt V) by auto. apply sqrt_le_1_alt. rewrite <- !objective_zero. exact Hobj.
Qed.
Print Assumptions C76_run.
(** a run of the program on a random positive tensor of order 3, rank 1 *)
Definition rEnv : environment (N:=Rnum) := mkEnv (N:=Rnum) (fun k ls => tabulate ls (fun x => IZR (1 + Z.of_nat ((k + list_sum x) mod 3)) : Rnum)) all_pairs (fun _ ls => zeros ls).
Definition rAtof (s : string) : Rnum := 0.
Definition rCmd : list string := ["./run"; "-tensor"; "r2"; "-dim"; "3"; "-size"; "2"; "-rank"; "1"; "-pp"; "0"; "-maxiter"; "2"; "-resprint"; "1"]%string.
Lemma rng_pos k ls x : inb ls x -> 0 < at_ (rng rEnv k ls) x.
Proof. intros H. cbn [rng rEnv]. rewrite at_tabulate by exact H. apply IZR_lt. lia. Qed.
Theorem C76_run_case :
  (let st := run_settings rAtof rCmd in
   String.get 0 (s_model st) = Some "C"%char /\ class_for st TwoSubtree /\ method_ok TwoSubtree 3 2 1 /\ s_resprint st = 1%Z /\ PropRun2.decomposes (s_tensor st) /\ s_maxiter st = 2%Z /\
   run_tensor rEnv 5 st = Ok (rng rEnv 0 [2; 2; 2]%nat)) /\
  systems_exact TwoSubtree LA1 (0 : Rnum) (rng rEnv 0 [2; 2; 2]%nat) 1 (map (fun i => rng rEnv (3 + i) [2; 1]%nat) [0; 1; 2]%nat) (map (fun i => rng rEnv (6 + i) [2; 1]%nat) [0; 1; 2]%nat) 6 /\
  exists ret W' G' gn rows es,
    run rAtof LA1 eClock true rEnv 5 3 6 6 rCmd eX = Ok (Some (ret, (W', G'), gn, rows)) /\
    map crow_residual rows = map Some es /\ nonincreasing es.
Proof.
  assert (Hrng : forall k ls, lens (rng rEnv k ls) = ls /\ Tensor.wf (rng rEnv k ls)) by (intros k ls; split; [reflexivity|apply tabulate_wf]).
  assert (S1 : s_model (run_settings rAtof rCmd) = "CP"%string) by reflexivity.
  assert (S2 : s_pp (run_settings rAtof rCmd) = 0%Z) by reflexivity.
  assert (S3 : s_resprint (run_settings rAtof rCmd) = 1%Z) by reflexivity.
  assert (S4 : s_tensor (run_settings rAtof rCmd) = "r2"%string) by reflexivity.
  assert (S5 : s_maxiter (run_settings rAtof rCmd) = 2%Z) by reflexivity.
  assert (S6 : s_dim (run_settings rAtof rCmd) = 3%Z) by reflexivity.
  assert (S7 : s_size (run_settings rAtof rCmd) = 2%Z) by reflexivity.
  assert (S8 : s_rank (run_settings rAtof rCmd) = 1%Z) by reflexivity.
  set (V := rng rEnv 0 [2; 2; 2]%nat).
  assert (ET : run_tensor rEnv 5 (run_settings rAtof rCmd) = Ok V).
  { rewrite (C53_tensor_r2 Rnum rEnv 5 (run_settings rAtof rCmd)) by (rewrite S4; reflexivity). rewrite S6, S7. reflexivity. }
  assert (SE : systems_exact TwoSubtree LA1 (0 : Rnum) V 1 (map (fun i => rng rEnv (3 + i) [2; 1]%nat) [0; 1; 2]%nat) (map (fun i => rng rEnv (6 + i) [2; 1]%nat) [0; 1; 2]%nat) 6).
  { cbn [systems_exact]. apply (along1_pos V 0).
    - intros x Hx. apply rng_pos. exact Hx.
    - apply Rle_refl.
    - intros m Hm. change (order V) with 3%nat in Hm. destruct m as [|[|[|m]]]; cbn; lia.
    - split.
      + split; [apply Hrng|]. split; [reflexivity|]. intros m Hm. change (order V) with 3%nat in Hm. destruct m as [|[|[|m]]]; try lia; (split; [reflexivity|apply tabulate_wf]).
      + intros m i Hm Hi. change (order V) with 3%nat in Hm. destruct m as [|[|[|m]]]; try lia; cbn in Hi; apply rng_pos; apply inb2; lia.
    - intros n Hn. change (order V) with 3%nat in *. vm_compute in Hn. lia. }
  split; [cbv zeta; rewrite S1, S3, S4, S5|split; [exact SE|]].
  - split; [reflexivity|]. split; [apply pp0; exact S2|]. split; [cbn; lia|]. split; [reflexivity|]. split; [right; left; reflexivity|]. split; [reflexivity|exact ET].
  - destruct (C76_run rAtof LA1 eClock true rEnv 5 3 6 6 rCmd eX TwoSubtree V) as (ret & W' & G' & gn & rows & es & E & H1 & H2 & H3 & H4).
    + exact LA1_tri_shaped.
    + exact LA1_low_shaped.
    + exact Hrng.
    + rewrite S1. reflexivity.
    + apply pp0. exact S2.
    + rewrite S6, S7, S8. cbn. lia.
    + rewrite S3. discriminate.
    + rewrite S5. apply le_n.
    + rewrite S4. right; left; reflexivity.
    + rewrite S4. discriminate.
    + exact ET.
    + rewrite S5, S6, S7, S8. exact SE.
    + exists ret, W', G', gn, rows, es. split; [exact E|]. split; [exact H3|]. intros a b Hab. apply (H4 (S a) (S b)). cbn [List.length]. lia.
Qed.
Print Assumptions C76_run_case.
