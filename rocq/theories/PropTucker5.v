(** C80: the quality of the pairwise-perturbation Tucker decomposition over the reals *)
From Coq Require Import String Ascii List ZArith QArith Lia Bool Arith Reals Lra.
From Verif Require Import Base Num NumR Tensor Spec Spec2 Spec4 Spec7 Spec8 Spec9 Spec12 Spec13 Spec14 Spec15 Spec18 Spec20 Spec24 MCommon MCP MTucker MGen MRun MMains PBase PTensor PSum PPart PMat PMatAlg PMttkrp PGrad
  PTtm PTucker PHosvd PSign PTSweep PTuckFit PKyFan PTuckMono PHosvdQ PDrivers PPPDriver PTPP PTPP2 PTPPDriver PTDriverRef PErr PErr2 PTuckPP PTuckPP2 PTuckPP3 PEig2
  PropTucker PropTucker2 PropTucker3 PropTucker4 PropDrivers2 PropMains2.
Import ListNotations.
Local Close Scope Q_scope.
Local Open Scope R_scope.

Lemma second_order_ext ms (a d d' : nat -> R) : (forall m, In m ms -> d m = d' m) -> second_order ms a d = second_order ms a d'.
Proof.
  intros Q. unfold second_order. f_equal; [f_equal|].
  - apply bigprod_ext. intros m Hm. rewrite Q by auto. reflexivity.
  - apply bigsum_ext. intros m Hm. apply bigprod_ext. intros q Hq. destruct (Nat.eqb q m); auto.
Qed.

(** the update of one mode: no orthonormal factor in place of the one the approximate update chooses gives a core whose norm exceeds that
    of the chosen one by more than twice what the expansion drops *)
Theorem C80_update :
  forall (svd : tensor Rnum -> nat -> tensor Rnum * tensor Rnum * tensor Rnum) (V : tensor Rnum) (W0 dW : list (tensor Rnum)) (ranks : list nat) (n : nat),
  ranks_ok (lens V) ranks -> tucker_ok V W0 ranks -> ortho_factors W0 ranks -> tmats_ok V ranks dW -> (n < order V)%nat ->
  leading_svd svd (unfold_gram (pp_ttmc V W0 dW n) n) (nth n (lens V) 0%nat) (nth n ranks 0%nat) ->
  let W := perturbed W0 dW in
  let U := fac (fst (tpp_update svd V ranks W0 (W, dW) n)) n in
  ortho_cols U (nth n ranks 0%nat) /\
  forall P, is_mat P (nth n (lens V) 0%nat) (nth n ranks 0%nat) -> ortho_cols P (nth n ranks 0%nat) ->
    norm2 (tucker_core V (setf W n P)) <= norm2 (tucker_core V (setf W n U)) + 2 * norm2 V * second_order (others n (order V)) (fun _ => 1) (fun m => norm2 (fac dW m)).
Proof.
  intros svd V W0 dW ranks n HR HW HO HD Hn Hl W U. pose proof (ok_shaped V ranks W0 HW) as HS. 
  assert (EU : U = aligned (lsv svd (unfold_gram (pp_ttmc V W0 dW n) n) (nth n ranks 0%nat)) (fac W0 n)).
  { unfold U. cbn [tpp_update fst]. rewrite fac_setf, Nat.eqb_refl; [reflexivity|]. unfold W. rewrite (proj1 (perturbed_shaped V ranks W0 dW HS)). exact Hn. }
  pose proof (lead_aligned _ _ (fac W0 n) _ _ (leading_lead _ _ _ _ Hl)) as HU. rewrite <- EU in HU.
  split; [apply (U_ortho V ranks HR W0 dW n U Hn HU)|]. intros P HP HPo.
  apply (update_core V ranks HR (proj1 HW) W0 dW n U HS HO HD Hn HU P HP HPo).
Qed.
Print Assumptions C80_update.

(** one call of the approximate sweep, around orthonormal W0 and with orthonormal current factors W = W0 + dW *)
Theorem C80_sweep :
  forall (LA : lapack Rnum), svd_trunc_shaped (svd LA) ->
  forall (V core Y_end : tensor Rnum) (W0 W dW : list (tensor Rnum)) (ranks : list nat) (seqV : buf Z) (table : smap (tensor Rnum)),
  (3 <= order V <= 9)%nat -> ranks_ok (lens V) ranks -> tucker_ok V W0 ranks -> ortho_factors W0 ranks -> tmats_ok V ranks dW ->
  W = perturbed W0 dW -> ortho_factors W ranks -> lens core = ranks ->
  mk_seqV (order V) = Ok seqV -> build_ttmc_operators V W0 seqV = Ok table -> mk_Yend V W0 = Ok Y_end ->
  tpp_leading (svd LA) V ranks W0 W dW ->
  exists core' W' dW' Y_end',
  Tucker_PP_sweep LA V core table W0 seqV (W, dW, Y_end, seqV) = Ok (core', (W', dW', Y_end', seqV)) /\
  tucker_ok V W' ranks /\ ortho_factors W' ranks /\ tmats_ok V ranks dW' /\ W' = perturbed W0 dW' /\
  norm2 (tucker_core V W) <= norm2 (tucker_core V W') + 2 * norm2 V * sweep_loss (order V) dW dW' /\
  tucker_resid V W' * tucker_resid V W' <= tucker_resid V W * tucker_resid V W + 4 * sweep_loss (order V) dW dW' * (norm2 V * norm2 V) /\
  Rabs (norm2 core' - norm2 (tucker_core V W')) <= norm2 V * second_order (others (order V - 1) (order V)) (fun _ => 1) (in_effect dW dW' (order V - 1)).
Proof.
  intros LA HS V core Ye W0 W dW ranks seqV table Ho HR HW0 HO0 HD EW HO LC Es Eb EY Hl.
  pose proof (proj1 HW0) as HV. pose proof (ok_shaped V ranks W0 HW0) as S0.
  assert (HW : tucker_ok V W ranks) by (rewrite EW; apply (shaped_ok V ranks HR HV), perturbed_shaped; auto).
  pose proof (C31_sweep Rnum Rnum_ring Rsqrt_nonneg LA HS V core Ye W0 W dW ranks seqV table Ho HR HW0 HW HD LC Es Eb EY) as E.
  pose proof (T_inv V ranks HR (svd LA) W0 W dW S0 HD EW HO Hl (order V) (le_n _)) as (I1 & I2 & I3).
  pose proof (T_inv V ranks HR (svd LA) W0 W dW S0 HD EW HO Hl (order V - 1) ltac:(lia)) as (J1 & J2 & J3).
  pose proof (sweep_core_loss V ranks HR HV (svd LA) W0 W dW S0 HO0 HD EW HO Hl) as B.
  pose proof (T_snd V ranks HR (svd LA) W0 W dW S0 HD EW HO Hl (order V - 1)) as Q.
  pose proof (U_lead V ranks (svd LA) W0 W dW Hl (order V - 1) ltac:(lia)) as HU.
  pose proof (T_next V ranks (svd LA) W0 W dW (order V - 1)) as TN. replace (S (order V - 1)) with (order V) in TN by lia.
  unfold tpp_sweep in *. destruct (tpp_upto (svd LA) V ranks W0 (order V - 1) (W, dW)) as [Wa dWa]. destruct (tpp_upto (svd LA) V ranks W0 (order V) (W, dW)) as [W' dW'].
  cbn [fst snd] in *. destruct E as (Ye' & E). do 4 eexists. split; [exact E|].
  assert (HW' : tucker_ok V W' ranks) by (rewrite I2; apply (shaped_ok V ranks HR HV), perturbed_shaped; auto).
  split; [exact HW'|]. split; [exact I3|]. split; [exact I1|]. split; [exact I2|]. split; [exact B|]. split.
  { apply (resid_of_loss V ranks HV W W'); auto. apply sweep_loss_nonneg. }
  injection TN as E1 E2. 
  assert (LWa : length Wa = order V) by (rewrite J2; apply (perturbed_shaped V ranks W0 dWa S0)).
  assert (EU : fac W' (order V - 1) = aligned (lsv (svd LA) (unfold_gram (pp_ttmc V W0 dWa (order V - 1)) (order V - 1)) (nth (order V - 1) ranks 0%nat)) (fac W0 (order V - 1))).
  { rewrite E1, fac_setf, Nat.eqb_refl by lia. reflexivity. }
  rewrite EU. pose proof (core_close V ranks HR HV W0 dWa (order V - 1) _ S0 HO0 J1 ltac:(lia) HU) as C.
  rewrite <- J2 in C. rewrite E1. match type of C with _ <= _ * ?a => match goal with |- _ <= _ * ?b => replace b with a; [exact C|] end end.
  apply second_order_ext. intros m Hm. apply others_in in Hm as [Hm _]. unfold in_effect. rewrite Q by lia. reflexivity.
Qed.
Print Assumptions C80_sweep.

(** perturbations within the guard e of the sweeps: the loss of a sweep is of second order in e *)
Theorem C80_guard :
  forall (V : tensor Rnum) (W W' dW dW' : list (tensor Rnum)) (ranks : list nat) (rmax : nat) (e : R),
  ranks_ok (lens V) ranks -> (forall m, (m < order V)%nat -> (nth m ranks 0 <= rmax)%nat) -> 0 <= e ->
  tucker_ok V W ranks -> ortho_factors W ranks -> too_far (N:=Rnum) V (e : Rnum) W dW = false ->
  tucker_ok V W' ranks -> ortho_factors W' ranks -> too_far (N:=Rnum) V (e : Rnum) W' dW' = false ->
  let h := e * sqrt (INR rmax) in let p := INR (order V - 1) in
  sweep_loss (order V) dW dW' <= INR (order V) * guard_loss (order V) h /\
  guard_loss (order V) h <= p * (p - 1) / 2 * (h * h) * (1 + h) ^ (order V - 1).
Proof.
  intros V W W' dW dW' ranks rmax e HR Hmax He HW HO HT HW' HO' HT' h p. split.
  - apply loss_guard; intros m Hm; [apply (guard_small V ranks HR e W)|apply (guard_small V ranks HR e W')]; auto.
  - unfold guard_loss, p. apply binomial_tail. apply Rmult_le_pos; [auto|apply sqrt_pos].
Qed.
Print Assumptions C80_guard.

(** a state of the driver: factors of the given ranks, orthonormal; core, old core and changes of the right sizes *)
Definition tk_stands (V : tensor Rnum) (ranks : list nat) (k : tk_state (N:=Rnum)) : Prop :=
  tucker_ok V (kW k) ranks /\ ortho_factors (kW k) ranks /\ lens (kcore k) = ranks /\ lens (kprev k) = ranks /\ tmats_ok V ranks (kdW k).
Lemma stands_orth V ranks k : tk_stands V ranks k -> orth V ranks (kW k).
Proof. intros (H1 & H2 & _). split; auto. Qed.
Lemma stands_good V ranks k : tk_stands V ranks k -> tgood V ranks k.
Proof. intros (H1 & H2 & H3 & H4 & H5). split; [auto|]. split; [auto|]. split; auto. Qed.
Lemma stands_of V ranks k : tgood V ranks k -> orth V ranks (kW k) -> tk_stands V ranks k.
Proof. intros (H1 & H2 & H3 & H4) [_ H5]. split; [auto|]. split; [auto|]. split; [auto|]. split; auto. Qed.
Lemma chain_exact B l : forall b b', chain B b l b' -> (forall d it g t ph e s, In (Row (N:=Rnum) d it g t ph e s) l -> ph = 0%nat) ->
  b' <= b /\ forall d it g t ph e s, In (Row (N:=Rnum) d it g t ph e s) l -> b' <= e <= b.
Proof.
  induction l as [|r l IH]; intros b b' H Hp; [cbn in H; subst; split; [lra|intros; contradiction]|]. destruct r as [d it g t ph e s| |]; try contradiction.
  destruct H as [He H]. rewrite (Hp _ _ _ _ _ _ _ (or_introl eq_refl)) in H. cbn [Nat.eqb] in H. destruct (IH e b' H) as [H1 H2]; [intros; eapply Hp; right; eauto|].
  split; [lra|]. intros d' it' g' t' ph' e' s' [E|Hin]; [injection E; intros; subst; lra|]. destruct (H2 _ _ _ _ _ _ _ Hin). lra.
Qed.

(** the exact phase: the residual never rises; the residuals it logs lie between those at its two ends and do not increase *)
Theorem C80_exact_phase :
  forall (LA : lapack Rnum), svd_trunc_shaped (svd LA) ->
  forall (clock : nat -> R) (V : tensor Rnum) (ranks : list nat) (tol tol_init limit : R) (maxiter resprint iter : Z) (fuel : nat) (k : tk_state (N:=Rnum)),
  (order V = 4 \/ 6 <= order V <= 9)%nat -> (order V < fuel)%nat -> resprint <> 0%Z -> ranks_ok (lens V) ranks ->
  svd_leading (svd LA) (lens V) ranks -> tk_stands V ranks k ->
  exists iter' k' new, alsTucker_DT_sub LA clock true fuel V tol tol_init limit maxiter resprint iter k = Ok (iter', k') /\
    tk_stands V ranks k' /\ tucker_resid V (kW k') <= tucker_resid V (kW k) /\
    rows (kio k') = rows (kio k) ++ new /\ never_up_after_exact new /\
    forall d it g t ph e s, In (Row (N:=Rnum) d it g t ph e s) new -> ph = 0%nat /\ e <= tucker_resid V (kW k).
Proof.
  intros LA HS clock V ranks tol ti limit mi rp it fuel k Ho Hf Hrp HR Hl Hk.
  pose proof (stands_orth _ _ _ Hk) as HO. pose proof (proj1 (proj1 Hk)) as HV.
  destruct (tk_exact_phase_ok Rnum_ring LA V ranks ltac:(lia) HR Rsqrt_nonneg HS clock true tol limit mi rp Hrp ti fuel ltac:(lia) Hf it k (stands_good _ _ _ Hk)) as [E G].
  destruct (exact_orth (svd LA) V ranks HR Hl clock tol limit mi rp true ti (Z.to_nat (mi + 1 - it)) it (zfacs V ranks) k HO) as [A B].
  destruct (exact_chain (svd LA) V ranks HR Hl clock tol limit mi rp ti (tucker_resid V (kW k)) (Z.to_nat (mi + 1 - it)) it (zfacs V ranks) k HO (Rle_refl _)) as (l & b' & E1 & C & _ & Hp).
  destruct (chain_exact _ _ _ _ C Hp) as [_ Hb]. pose proof (chain_never_up _ _ _ _ C) as Hn.
  destruct (tk_exact_phase _ _ _ _ _ _ _ _ _ _ _ _ _ _) as [it' k']. cbn [snd] in *.
  exists it', k', l. split; [exact E|]. split; [apply stands_of; auto|]. split; [exact B|]. split; [exact E1|]. split; [exact Hn|].
  intros d i g t ph e s Hin. split; [eapply Hp; eauto|]. apply (Hb _ _ _ _ _ _ _ Hin).
Qed.
Print Assumptions C80_exact_phase.

(** the approximate phase started at iteration [iter]: the factors stay orthonormal, and the square of the residual logged at iteration
    [it] exceeds that of the start by at most (it - iter) times the loss that the guard allows in a sweep *)
Theorem C80_approx_phase :
  forall (LA : lapack Rnum), svd_trunc_shaped (svd LA) ->
  forall (clock : nat -> R) (V : tensor Rnum) (ranks : list nat) (rmax : nat) (tol tol_init limit : R) (maxiter resprint iter : Z) (k : tk_state (N:=Rnum)),
  (3 <= order V <= 9)%nat -> resprint <> 0%Z -> ranks_ok (lens V) ranks -> (forall m, (m < order V)%nat -> (nth m ranks 0 <= rmax)%nat) -> 0 <= tol_init ->
  svd_leading (svd LA) (lens V) ranks -> tk_stands V ranks k ->
  exists iter' k' new, alsTucker_PP_sub LA clock true V tol tol_init limit maxiter resprint false iter k = Ok (iter', k') /\
    tk_stands V ranks k' /\ rows (kio k') = rows (kio k) ++ new /\
    forall d it g t ph e s, In (Row (N:=Rnum) d it g t ph e s) new -> ph = 1%nat /\ (iter <= it)%Z /\
      e * e <= tucker_resid V (kW k) * tucker_resid V (kW k)
        + 4 * (IZR (it - iter) * (INR (order V) * guard_loss (order V) (tol_init * sqrt (INR rmax)))) * (norm2 V * norm2 V).
Proof.
  intros LA HS clock V ranks rmax tol ti limit mi rp it k Ho Hrp HR Hmax Hti Hl Hk.
  pose proof (stands_orth _ _ _ Hk) as HO. pose proof (proj1 (proj1 Hk)) as HV.
  destruct (tk_approx_phase_ok Rnum_ring LA V ranks ltac:(lia) HR Rsqrt_nonneg HS clock true tol limit mi rp false Hrp ti it k (stands_good _ _ _ Hk)) as [E G].
  pose proof (approx_phase_orth (svd LA) V ranks HR HV Hl clock tol limit mi rp true false ti it k HO) as A.
  assert (B : let r := tk_approx_phase (N:=Rnum) clock true (svd LA) V ranks tol limit mi rp false ti it k in exists l, rows (kio (snd r)) = rows (kio k) ++ l /\
    (forall d it' g t ph e s, In (Row (N:=Rnum) d it' g t ph e s) l -> ph = 1%nat /\ (it <= it')%Z /\
      e * e <= tucker_resid V (kW k) * tucker_resid V (kW k)
        + 4 * ((INR 0 + INR (Z.to_nat (it' - it))) * (INR (order V) * guard_loss (order V) (ti * sqrt (INR rmax)))) * (norm2 V * norm2 V))).
  { cbv zeta. unfold tk_approx_phase. destruct (it <=? mi)%Z; [|exists []; rewrite app_nil_r; split; [reflexivity|intros; contradiction]].
    destruct (negb false && _); [exists []; rewrite app_nil_r; split; [reflexivity|intros; contradiction]|].
    apply (approx_bound (svd LA) V ranks HR HV Hl clock tol limit mi rp ti rmax (kW k) Hti Hmax (Z.to_nat (mi + 1 - it)) 0 it n0 (mkTk (kW k) (kcore k) (kprev k) (zfacs V ranks) (kdn k) (kio k))); cbn [kW kdW].
    - apply (around_start V ranks). exact HO.
    - auto.
    - intros _. cbn [INR]. rewrite Rmult_0_l, Rmult_0_r, Rplus_0_r. apply Rle_refl. }
  destruct (tk_approx_phase _ _ _ _ _ _ _ _ _ _ _ _ _) as [it' k']. cbv zeta in B. cbn [snd] in *. destruct B as (l & E1 & B).
  exists it', k', l. split; [exact E|]. split; [apply stands_of; auto|]. split; [exact E1|]. intros d i g t ph e s Hin. destruct (B _ _ _ _ _ _ _ Hin) as (B1 & B2 & B3).
  split; [exact B1|]. split; [exact B2|]. replace (IZR (i - it)) with (INR 0 + INR (Z.to_nat (i - it))); [exact B3|].
  cbn [INR]. rewrite Rplus_0_l, INR_IZR_INZ, Z2Nat.id by lia. reflexivity.
Qed.
Print Assumptions C80_approx_phase.

(** a whole run that ends: orthonormal factors, no logged residual larger than |V|, none larger than the one in the row before if that row is
    of the exact phase *)
Theorem C80_run :
  forall (LA : lapack Rnum), svd_trunc_shaped (svd LA) ->
  forall (clock : nat -> R) (rank0 : bool) (V core : tensor Rnum) (W : list (tensor Rnum)) (ranks : list nat) (tol tol_init limit : R)
    (maxiter resprint : Z) (fuel rounds : nat) (x : io (N:=Rnum)) (ret : bool) (k : tk_state (N:=Rnum)),
  (order V = 4 \/ 6 <= order V <= 9)%nat -> (order V < fuel)%nat -> resprint <> 0%Z ->
  tucker_ok V W ranks -> ortho_factors W ranks -> ranks_ok (lens V) ranks -> lens core = ranks -> svd_leading (svd LA) (lens V) ranks ->
  alsTucker_PP LA clock rank0 rounds fuel V core W tol tol_init limit maxiter resprint false x = Ok (ret, k) ->
  tucker_ok V (kW k) ranks /\ ortho_factors (kW k) ranks /\ tucker_resid V (kW k) <= norm2 V /\
  exists new, rows (kio k) = rows x ++ new /\ never_up_after_exact new /\
    forall d it g t ph e s, In (Row (N:=Rnum) d it g t ph e s) new -> e <= norm2 V.
Proof.
  intros LA HS clock rank0 V core W ranks tol ti limit mi rp fuel rounds x ret k Ho Hf Hrp HW HOr HR LC Hl E.
  pose proof (proj1 HW) as HV. assert (HO : orth V ranks W) by (split; auto).
  rewrite (C59_alsTucker_PP_is_the_algorithm Rnum Rnum_ring Rsqrt_nonneg LA HS clock rank0 V core W ranks) in E by (auto; lia). unfold tk_algorithm in E.
  destruct (tk_driver_loop _ _ _ _ _ _ _ _ _ _ _ _ _ _) as [[it q]|] eqn:Ed; [|discriminate]. injection E as _ <-.
  pose proof (driver_orth (svd LA) V ranks HR HV Hl clock tol limit mi rp rank0 false rounds ti 0%Z (mkTk W core core (zfacs V ranks) (nlit (n:=Rnum) 10) (mkIo (N:=Rnum) (ck x + 1) (clock (ck x)) (rows x))) it q HO Ed) as A.
  split; [apply A|]. split; [apply A|]. split; [apply (resid_top V ranks HV); auto|].
  destruct rank0.
  - destruct (driver_chain (svd LA) V ranks HR HV Hl clock tol limit mi rp rounds ti 0%Z (mkTk W core core (zfacs V ranks) (nlit (n:=Rnum) 10) (mkIo (N:=Rnum) (ck x + 1) (clock (ck x)) (rows x))) it q (norm2 V) HO) as (l & b' & E1 & C & _ & _); auto.
    { apply (resid_top V ranks HV); auto. } { apply Rle_refl. }
    exists l. split; [exact E1|]. split; [eapply chain_never_up; eauto|]. intros d i g t ph e s Hin.
    eapply (chain_all _ _ _ _ (Rle_refl _) C); eauto.
  - pose proof (tk_driver_log (N:=Rnum) clock false (svd LA) V ranks tol limit mi rp rounds ti 0%Z _ it q Ed) as [_ (l & E1 & _ & En)]. rewrite (En eq_refl) in E1.
    exists []. split; [exact E1|]. split; [intros i; intros; destruct i; discriminate|intros; contradiction].
Qed.
Print Assumptions C80_run.

(** the program test_ALS with -model Tucker -pp 1: hosvd, then the pairwise-perturbation driver.  If it ends, its factors are orthonormal
    and fit V no worse than the zero tensor does *)
Theorem C80_test_ALS :
  forall (LA : lapack Rnum), svd_trunc_shaped (svd LA) ->
  forall (atof : string -> R) (clock : nat -> R) (rank0 same : bool) (env : environment (N:=Rnum)) (trunc : R -> nat) (fuel base tf rounds : nat)
    (argv : list string) (x : io (N:=Rnum)) (V : tensor Rnum) (r : als_result (N:=Rnum)),
  let st := test_ALS_settings (N:=Rnum) atof argv in
  let ranks := program_ranks (s_tensor st) (order V) (Z.to_nat (s_rank st)) in
  String.get 0 (s_model st) = Some "T"%char -> s_pp st = 1%Z ->
  run_tensor env fuel st = Ok V -> wf V -> tucker_orders 1 (order V) -> (order V < tf)%nat ->
  s_resprint st <> 0%Z -> ranks_ok (lens V) ranks -> svd_leading (svd LA) (lens V) ranks ->
  test_ALS (N:=Rnum) atof LA clock rank0 env trunc fuel base tf rounds same argv x = Ok r ->
  exists ret core W y, r = Tucker_done (Some ret) core W y /\ tucker_ok V W ranks /\ ortho_factors W ranks /\ tucker_resid V W <= norm2 V /\
    exists new, rows y = rows x ++ new /\ never_up_after_exact new /\
      forall d it g t ph e s, In (Row (N:=Rnum) d it g t ph e s) new -> e <= norm2 V.
Proof.
  intros LA HS atof clock rank0 same env trunc fuel base tf rounds argv x V r st ranks HT Hpp EV HV Ho Htf Hrp HR Hl.
  rewrite (C61_test_ALS_tucker Rnum Rnum_ring Rsqrt_nonneg LA HS atof clock rank0 same env trunc fuel base tf rounds argv x V) by (auto; fold st; rewrite Hpp; exact Ho).
  fold st ranks. unfold tucker_program. rewrite Hpp. unfold tucker_orders in Ho. assert (Ho9 : (3 <= order V <= 9)%nat) by lia. assert (Ho4 : (order V = 4 \/ 6 <= order V)%nat) by lia.
  destruct (C32_hosvd Rnum Rnum_ring LA HS V (repeat tnil (order V)) ranks HV ltac:(lia) (repeat_length _ _) HR) as (core & W & Eh & EW & HW & EC).
  rewrite <- EW. cbv zeta. rewrite <- EC.
  assert (HO : ortho_factors W ranks).
  { intros m Hm. rewrite (proj1 (proj2 HW)) in Hm. rewrite EW, fac_map_seq by auto.
    apply (lead_ortho _ (unfold_gram V m) (nth m (lens V) 0%nat) _ (proj2 (proj2 HR m Hm))). apply leading_lead. apply Hl; auto. }
  assert (LC : lens core = ranks) by (rewrite EC; apply tcore_lens; auto).
  pose proof (C59_alsTucker_PP_is_the_algorithm Rnum Rnum_ring Rsqrt_nonneg LA HS clock rank0 V core W ranks (nmul (n:=Rnum) (s_tol st) (norm2 V)) (s_pp_res_tol st) (s_timelimit st) (s_maxiter st) (s_resprint st) false tf rounds x Ho9 (or_intror (conj Ho4 Htf)) Hrp HW HR LC) as EA.
  destruct (tk_algorithm _ _ _ _ _ _ _ _ _ _ _ _ _ _ _) as [[ret k]|]; [|discriminate]. intros E. injection E as <-.
  destruct (C80_run LA HS clock rank0 V core W ranks (nmul (n:=Rnum) (s_tol st) (norm2 V)) (s_pp_res_tol st) (s_timelimit st) (s_maxiter st) (s_resprint st) tf rounds x ret k Ho Htf Hrp HW HO HR LC Hl EA) as (A1 & A2 & A3 & A4).
  exists ret, (kcore k), (kW k), (kio k). auto.
Qed.
Print Assumptions C80_test_ALS.

(** *** a case: the routine LA2 of PEig2 decomposes 2 x 2 matrices explicitly; V has order 4, ranks 1, 2, 1, 2; the current first factor is
    turned away from the checkpoint *)
Definition ppV : tensor Rnum := tabulate (N:=Rnum) [2; 2; 2; 2]%nat (fun x => IZR (Z.of_nat (nth 0 x 0%nat) - Z.of_nat (nth 1 x 0%nat * nth 2 x 0%nat) + Z.of_nat (nth 3 x 0%nat))).
Definition ppR : list nat := [1; 2; 1; 2]%nat.
Definition ppW0 : list (tensor Rnum) := [qc 1 0; qI 2 2; qc 0 1; qI 2 2].
Definition ppD : list (tensor Rnum) := [qc (-2/5) (4/5); zeros [2; 2]%nat; zeros [2; 1]%nat; zeros [2; 2]%nat].
Definition ppW : list (tensor Rnum) := [qc (3/5) (4/5); qI 2 2; qc 0 1; qI 2 2].
Lemma ppR_ok : ranks_ok (lens ppV) ppR.
Proof. split; [reflexivity|]. intros m Hm. cbn in Hm. do 4 (destruct m as [|m]; [cbn; lia|]). lia. Qed.
Lemma pp_is (X : list (tensor Rnum)) : length X = 4%nat -> (forall m, (m < 4)%nat -> lens (fac X m) = [2%nat; nth m ppR 0%nat] /\ wf (fac X m)) -> tucker_ok ppV X ppR.
Proof.
  intros L H. split; [apply tabulate_wf|]. split; [exact L|]. split; [reflexivity|]. intros m Hm. change (order ppV) with 4%nat in Hm.
  replace (nth m (lens ppV) 0%nat) with 2%nat; [split; apply H; auto|]. do 4 (destruct m as [|m]; [reflexivity|]). lia.
Qed.
Lemma ppW0_ok : tucker_ok ppV ppW0 ppR /\ ortho_factors ppW0 ppR.
Proof.
  split.
  - apply pp_is; [reflexivity|]. intros m Hm. do 4 (destruct m as [|m]; [split; reflexivity|]). lia.
  - intros m Hm. change (length ppW0) with 4%nat in Hm. do 4 (destruct m as [|m]; [unfold ortho_cols; qcalc; f_equal; repeat (apply f_equal2; [ring|]); reflexivity|]). lia.
Qed.
Lemma ppW_ok : tucker_ok ppV ppW ppR /\ ortho_factors ppW ppR.
Proof.
  split.
  - apply pp_is; [reflexivity|]. intros m Hm. do 4 (destruct m as [|m]; [split; reflexivity|]). lia.
  - intros m Hm. change (length ppW) with 4%nat in Hm. do 4 (destruct m as [|m]; [unfold ortho_cols; qcalc; f_equal; repeat (apply f_equal2; [field|]); reflexivity|]). lia.
Qed.
Lemma ppD_ok : tmats_ok ppV ppR ppD.
Proof. split; [reflexivity|]. intros m Hm. change (order ppV) with 4%nat in Hm. do 4 (destruct m as [|m]; [split; reflexivity|]). lia. Qed.
Lemma ppW_eq : ppW = perturbed ppW0 ppD.
Proof. unfold ppW, perturbed, ppD, ppW0. qcalc. repeat (apply f_equal2; [apply f_equal; repeat (apply f_equal2; [field|]); reflexivity|]). reflexivity. Qed.
Lemma LA2_ppV : svd_leading (svd LA2) (lens ppV) ppR.
Proof. apply LA2_leading; intros n Hn; cbn in Hn; do 4 (destruct n as [|n]; [cbn; lia|]); lia. Qed.
Lemma ppV_norm : norm2 ppV < 9.
Proof.
  assert (E : sumsq ppV < 81) by (qcalc; lra). rewrite norm2_sumsq by apply tabulate_wf. replace 9 with (sqrt (9 * 9)) by (apply sqrt_square; lra).
  apply sqrt_lt_1_alt. split; [apply sumsq_nonneg|lra].
Qed.
Lemma lt_nltb (a b : R) : (a < b)%R -> nltb (n:=Rnum) a b = true.
Proof. intros H. cbn. destruct (Rltb_spec a b); [reflexivity|lra]. Qed.
(** a run of one sweep: a tolerance above |V| ends it at the first check *)
Lemma one_sweep (LA : lapack Rnum) (clock : nat -> R) (V : tensor Rnum) (W : list (tensor Rnum)) ranks (tol ti limit : R) fuel (x : io (N:=Rnum)) :
  svd_trunc_shaped (svd LA) -> (order V = 4 \/ 6 <= order V <= 9)%nat -> (order V < fuel)%nat -> tucker_ok V W ranks -> ortho_factors W ranks -> ranks_ok (lens V) ranks ->
  svd_leading (svd LA) (lens V) ranks -> norm2 V < tol -> tol < 10 -> ti < 1 ->
  exists k g s, alsTucker_PP LA clock true 1 fuel V (tucker_core V W) W tol ti limit 1 1 false x = Ok (true, k) /\
    rows (kio k) = rows x ++ [Row (N:=Rnum) (nth 0 (lens V) 0%nat) 1 g tol 0 (tucker_resid V (kW k)) s].
Proof.
  intros HS Ho Hf HW HO HR Hl Hb Ht Hti.
  rewrite (C59_alsTucker_PP_is_the_algorithm Rnum Rnum_ring Rsqrt_nonneg LA HS clock true V (tucker_core V W) W ranks) by (auto; try lia; apply tcore_lens; auto).
  set (k0 := mkTk W (tucker_core V W) (tucker_core V W) (zfacs V ranks) (nlit (n:=Rnum) 10) (mkIo (N:=Rnum) (ck x + 1) (clock (ck x)) (rows x))).
  set (W1 := hooi_aligned_upto (svd LA) V ranks (zfacs V ranks) (order V) W). set (d1 := differences V W1 (zfacs V ranks)).
  assert (HO1 : orth V ranks W1) by (apply (exact_any (svd LA) V ranks HR Hl); auto). destruct HO1 as [HW1 HOr1]. pose proof (proj1 HW) as HV.
  assert (O1 : (1 <= order V)%nat) by lia.
  assert (Hrel : forall m, (m < order V)%nat -> rel_change (N:=Rnum) W1 d1 m = 1).
  { intros m Hm. rewrite rel_change_R. unfold d1, differences. rewrite fac_map_seq by auto.
    assert (Hz : msub (fac W1 m) (fac (zfacs V ranks) m) = fac W1 m).
    { destruct (proj2 (proj2 (proj2 HW1)) m Hm) as [L1 L2]. unfold zfacs. rewrite fac_map_seq by auto. unfold msub. rewrite L1.
      apply (mat_ext _ _ (nth m (lens V) 0%nat) (nth m ranks 0%nat)); [split; [reflexivity|apply tabulate_wf]|split; auto|].
      intros a b Ha Hb'. unfold el. rewrite at_tabulate by (repeat constructor; auto). unfold zeros. rewrite at_tabulate by (repeat constructor; auto). cbn. ring. }
    rewrite Hz. rewrite (norm_ortho (fac W1 m) _ _ (proj2 (proj2 (proj2 HW1)) m Hm)) by (apply HOr1; rewrite (proj1 (proj2 HW1)); auto).
    assert (1 <= INR (nth m ranks 0%nat)) by (change 1 with (INR 1); apply le_INR; apply HR; auto).
    assert (0 < sqrt (INR (nth m ranks 0%nat))) by (apply sqrt_lt_R0; lra). unfold Rdiv. rewrite Rinv_r by lra. apply Rabs_R1. }
  assert (Hfar : too_far (N:=Rnum) V (ti : Rnum) W1 d1 = true).
  { unfold too_far. apply existsb_exists. exists 0%nat. split; [apply in_seq; lia|]. rewrite Hrel by lia. apply lt_nltb. exact Hti. }
  assert (Hset : settled (N:=Rnum) V (ti : Rnum) W1 d1 = false).
  { unfold settled. destruct (forallb _ _) eqn:E; auto. rewrite forallb_forall in E. specialize (E 0%nat ltac:(apply in_seq; lia)). rewrite Hrel in E by lia. apply nltb_lt in E. change (1 < ti) in E. lra. }
  set (k1 := mkTk W1 (tucker_core V W1) (kprev k0) d1 (kdn k0) (kio k0)).
  assert (Hch : core_dist V W1 (tucker_core V W) < tol).
  { unfold core_dist. change (Rabs (norm2 (tucker_core V W1) - norm2 (tucker_core V W)) < tol).
    pose proof (core_bound V ranks HV W HW HO) as B0. pose proof (core_bound V ranks HV W1 HW1 HOr1) as B1. pose proof (norm2_pos (tucker_core V W)) as P0. pose proof (norm2_pos (tucker_core V W1)) as P1.
    set (p := norm2 (tucker_core V W)) in *. set (q := norm2 (tucker_core V W1)) in *. clearbody p q. change (car Rnum) with R in *. apply Rabs_def1; lra. }
  assert (Hk : exists k2 g s, tk_exact_check (N:=Rnum) clock true V tol limit 1 k1 = (true, k2) /\ kW k2 = W1 /\ kdW k2 = d1 /\ kdn k2 < tol /\ rows (kio k2) = rows x ++ [Row (N:=Rnum) (nth 0 (lens V) 0%nat) 1 g tol 0 (tucker_resid V W1) s]).
  { unfold tk_exact_check. cbn [kW k1 kprev k0]. unfold timed. cbv zeta. unfold finished. assert (Hn : nltb (n:=Rnum) (core_dist V W1 (tucker_core V W)) tol = true) by (apply lt_nltb; exact Hch).
    rewrite Hn. do 3 eexists. split; [reflexivity|]. cbn [kW kdW kdn kio k1 written rows k0]. split; [reflexivity|]. split; [reflexivity|]. split; [exact Hch|]. reflexivity. }
  destruct Hk as (k2 & g & s & E2 & F1 & F2 & F3 & F4). exists k2, g, s. rewrite F1. split; [|exact F4].
  unfold tk_algorithm. fold k0. cbn [tk_driver_loop].
  assert (C0 : nltb (n:=Rnum) tol (kdn k0) = true). { apply lt_nltb. change (kdn k0) with (nlit (n:=Rnum) 10). replace (nlit (n:=Rnum) 10) with 10; [exact Ht|]. cbn. unfold Q2R. cbn. lra. }
  assert (C2 : nltb (n:=Rnum) tol (kdn k2) = false). { destruct (nltb (n:=Rnum) tol (kdn k2)) eqn:E; [|reflexivity]. apply nltb_lt in E. exfalso. set (y := kdn k2) in *. clearbody y. change (car Rnum) with R in *. lra. }
  rewrite C0. change (0 <=? 1)%Z with true. cbn [andb]. change (Z.to_nat (1 + 1 - 0)) with 2%nat. cbn [tk_exact_phase].
  change (tk_due 1 1 0) with false. cbn [kW k0]. fold W1. cbv zeta. cbn [kdW kW kprev kio kdn k0]. fold d1. rewrite Hset. change (0 + 1)%Z with 1%Z. cbn [tk_exact_phase]. change (tk_due 1 1 1) with true. 
  match goal with |- context [tk_exact_check clock true V tol limit 1 ?k] => change k with k1 end. rewrite E2.
  unfold tk_approx_phase. change (1 <=? 1)%Z with true. rewrite F1, F2, Hfar. cbn [negb andb]. rewrite C2. reflexivity.
Qed.
Theorem C80_case :
  svd_trunc_shaped (svd LA2) /\ order ppV = 4%nat /\ ranks_ok (lens ppV) ppR /\ svd_leading (svd LA2) (lens ppV) ppR /\ tucker_ok ppV ppW0 ppR /\ ortho_factors ppW0 ppR /\ tmats_ok ppV ppR ppD /\ ppW = perturbed ppW0 ppD /\ ortho_factors ppW ppR /\ tpp_leading (svd LA2) ppV ppR ppW0 ppW ppD /\ forall (clock : nat -> R) (limit : R) (x : io (N:=Rnum)), exists k g s,
    alsTucker_PP LA2 clock true 1 5 ppV (tucker_core ppV ppW) ppW 9 (1/2) limit 1 1 false x = Ok (true, k) /\ rows (kio k) = rows x ++ [Row (N:=Rnum) 2 1 g 9 0 (tucker_resid ppV (kW k)) s].
Proof.
  split; [apply LA2_shaped|]. split; [reflexivity|]. split; [apply ppR_ok|]. split; [apply LA2_ppV|]. split; [apply ppW0_ok|]. split; [apply ppW0_ok|]. split; [apply ppD_ok|].
  split; [apply ppW_eq|]. split; [apply ppW_ok|]. split.
  - apply (approx_leading (svd LA2) ppV ppR LA2_ppV). apply ok_shaped. apply ppW0_ok.
  - intros clock limit x. apply (one_sweep LA2 clock ppV ppW ppR 9 (1/2) limit 5 x); try apply ppW_ok; try apply LA2_shaped; try apply ppR_ok; try apply LA2_ppV; try apply ppV_norm; try lra.
    + left. reflexivity.
    + change (order ppV) with 4%nat. lia.
Qed.
Print Assumptions C80_case.
