(** C78: a sweep of the approximate phase is nearly an exact sweep of alternating least squares: the new factors are close to the exact
    updates, and the objective can only increase by a bounded amount, of fourth order in the perturbations for the first sweep after a
    checkpoint, and of second order for a later one (the rescaling of C73). *)
From Coq Require Import List ZArith Lia Bool Arith Reals Lra.
From Verif Require Import Base Num NumR Tensor Spec Spec2 Spec7 Spec11 Spec12 Spec18 Spec19 Spec20 Spec22 MCommon MCP PBase PTensor PSum PMttkrp PPart PMat PMatAlg PResid PGrad PRank PNormalize PALS
  PMono PMono2 PTree PDT PDTSweep PDrivers PPP PPPSweep PPPDriver PDriverRef PConv PConv2 PConv4 PPPMulti PErr PErr2 PErr3 PTuckMono PApprox PApprox2 PApprox3 PropPP PropConv3 PropErr PropErr2.
Import ListNotations.
Local Open Scope R_scope.
Local Notation RL := Rnum_ring.
Local Notation bs := (bigsum (N:=Rnum)).
Local Notation bp := (bigprod (N:=Rnum)).

Lemma empty_norm (A : tensor Rnum) k : is_mat A 0 k -> norm2 A = 0.
Proof.
  intros HM. rewrite norm2_sumsq by apply HM. unfold sumsq. destruct HM as [HL _]. rewrite HL.
  assert (E0 : all_idx [0%nat; k] = []). { destruct (all_idx [0%nat; k]) as [|x l] eqn:Ex; [reflexivity|]. exfalso.
    assert (Hx : In x (all_idx [0%nat; k])) by (rewrite Ex; left; reflexivity). apply all_idx_in in Hx. inversion Hx; lia. }
  rewrite E0. change (bigsum (N:=Rnum) [] ?g) with 0. apply sqrt_0.
Qed.
Lemma lens_of_norm (V : tensor Rnum) (W0 D : list (tensor Rnum)) rk : factors_ok V W0 rk -> (forall m, (m < order V)%nat -> norm2 (madd (fac W0 m) (fac D m)) <> 0) ->
  forall n, (n < order V)%nat -> (0 < nth n (lens V) 0)%nat.
Proof.
  intros (_ & _ & HM) H n Hn. specialize (HM n Hn). specialize (H n Hn). destruct (nth n (lens V) 0%nat) as [|r]; [|lia]. exfalso. apply H.
  apply (empty_norm _ rk). apply madd_mat. exact HM.
Qed.
Lemma final_fac LA (V : tensor Rnum) rk (lambda t : Rnum) W0 W dW : factors_ok V W0 rk -> factors_ok V W rk -> mats_ok V dW rk -> (2 <= order V)%nat -> forall m, (m < order V)%nat ->
  fac (fst (pp_upto (pinv_solve (svd LA) rk) lambda t V W0 rk (order V) (W, dW))) m
  = madd (fac W0 m) (fac (snd (pp_upto (pinv_solve (svd LA) rk) lambda t V W0 rk (order V) (W, dW))) m).
Proof.
  intros HW0 HW HD Ho m Hm. rewrite (upto_earlier LA V rk lambda t W0 W dW HW0 HW HD Ho) by lia. unfold perturbed. destruct HW0 as (_ & -> & _).
  apply (fac_map_seq (fun q => madd (fac W0 q) (fac (snd (pp_upto (pinv_solve (svd LA) rk) lambda t V W0 rk (order V) (W, dW))) q))). auto.
Qed.

(** ** the first sweep after the checkpoint, damped or not *)
Theorem C78_first_sweep :
  forall (LA : lapack Rnum), svd_shaped (svd LA) ->
  forall (same : bool) (V : tensor Rnum) (W0 G : list (tensor Rnum)) (rk : nat) (Sm : tensor Rnum) (lambda ratio : R) (regul : tensor Rnum)
    (seqV : buf Z) (table : smap (tensor Rnum)) W' G' dW' Sm' seqV',
  (3 <= order V <= 9)%nat -> factors_ok V W0 rk -> mats_ok V G rk -> lens Sm = [rk; rk] ->
  mk_seqV (order V) = Ok seqV -> mk_regul rk (lambda : Rnum) = Ok regul -> build_operators same V W0 seqV = Ok table ->
  0 < lambda -> 0 <= ratio <= 1 -> pp_systems_valid (svd LA) lambda ratio V W0 rk W0 (zmats V rk) ->
  PP_sweep LA V table W0 (lambda : Rnum) (ratio : Rnum) regul seqV W0 G (zmats V rk) Sm seqV = Ok (W', G', dW', Sm', seqV') ->
  (forall m, (m < order V)%nat -> norm2 (madd (fac W0 m) (fac dW' m)) <> 0) ->
  objective (lambda : Rnum) V W' rk
  <= objective (lambda : Rnum) V W0 rk
     + ratio / lambda * bs (seq 0 (order V)) (fun n => (norm2 V * second_order (others n (order V)) (fun m => norm2 (fac W0 m)) (fun m => norm2 (fac dW' m))) ^ 2).
Proof.
  intros LA Hsh same V W0 G rk Sm lambda ratio regul seqV table W' G' dW' Sm' seqV' Ho HW0 HG HS Es Er Eb Hl Ht Hv E HP.
  assert (HD : mats_ok V (zmats V rk) rk) by apply zmats_mats.
  destruct (C11_sweep Rnum RL LA Hsh same V W0 W0 (zmats V rk) G rk Sm (lambda : Rnum) (ratio : Rnum) regul seqV table) as (S1 & E1); auto; try (apply Reqb_eq).
  rewrite E in E1. assert (EW : W' = fst (pp_sweep (pinv_solve (svd LA) rk) (lambda : Rnum) (ratio : Rnum) V W0 rk (W0, zmats V rk))) by (injection E1; auto).
  assert (ED : dW' = snd (pp_sweep (pinv_solve (svd LA) rk) (lambda : Rnum) (ratio : Rnum) V W0 rk (W0, zmats V rk))) by (injection E1; auto).
  clear E1 E. rewrite snd_sweep in ED. pose proof (lens_of_norm V W0 dW' rk HW0 HP) as Hlen.
  pose proof (sweep_objective LA Hsh V rk lambda ratio W0 W0 (zmats V rk) Hl Ht HW0 HW0 HD (or_intror eq_refl) Hlen Hv ltac:(lia)) as H.
  rewrite <- EW in H. eapply Rle_trans; [apply H|].
  - intros m Hm. rewrite (final_fac LA V rk (lambda : Rnum) (ratio : Rnum) W0 W0 (zmats V rk)) by (auto; lia). rewrite <- ED. apply HP. auto.
  - apply Rplus_le_compat_l. unfold Rdiv. rewrite (Rmult_comm _ (/ lambda)), <- Rmult_assoc. apply Rmult_le_compat_l; [apply Rmult_le_pos; [lra|left; apply Rinv_0_lt_compat; lra]|].
    apply bs_le. intros n Hn. apply in_seq in Hn. pose proof (first_error LA Hsh V rk lambda ratio W0 W0 (zmats V rk) HW0 HW0 HD ltac:(lia) n eq_refl eq_refl ltac:(lia)) as K.
    rewrite <- ED in K. assert (K0 : 0 <= mode_error LA V rk lambda ratio W0 W0 (zmats V rk) n) by apply norm2_pos.
    rewrite <- Rsqr_pow2. apply Rsqr_incr_1; auto. eapply Rle_trans; eauto.
Qed.
Print Assumptions C78_first_sweep.

(** ** a later sweep, undamped, while the guard tol_init = e < 1/2 holds before and after it *)
Theorem C78_guarded_sweep :
  forall (LA : lapack Rnum), svd_shaped (svd LA) ->
  forall (same : bool) (V : tensor Rnum) (W0 W dW G : list (tensor Rnum)) (rk : nat) (Sm : tensor Rnum) (lambda : R) (regul : tensor Rnum)
    (seqV : buf Z) (table : smap (tensor Rnum)) W' G' dW' Sm' seqV' (a e : R),
  (3 <= order V <= 9)%nat -> factors_ok V W0 rk -> factors_ok V W rk -> mats_ok V dW rk -> mats_ok V G rk -> lens Sm = [rk; rk] ->
  mk_seqV (order V) = Ok seqV -> mk_regul rk (lambda : Rnum) = Ok regul -> build_operators same V W0 seqV = Ok table ->
  0 < lambda -> pp_systems_valid (svd LA) lambda 1 V W0 rk W dW ->
  0 <= e < / 2 -> 0 < a -> (forall m, (m < order V)%nat -> norm2 (fac W0 m) = a) ->
  W = rescaled (perturbed W0 dW) -> dw_count (order V) (e : Rnum) W dW = Ok 0%nat ->
  PP_sweep LA V table W0 (lambda : Rnum) (1 : Rnum) regul seqV W G dW Sm seqV = Ok (W', G', dW', Sm', seqV') ->
  dw_count (order V) (e : Rnum) W' dW' = Ok 0%nat ->
  (forall m, (m < order V)%nat -> norm2 (madd (fac W0 m) (fac dW m)) <> 0 /\ norm2 (madd (fac W0 m) (fac dW' m)) <> 0) ->
  objective (lambda : Rnum) V W' rk
  <= objective (lambda : Rnum) V W rk + INR (order V) * (norm2 V * (a ^ (order V - 1) * pp_gap (order V - 1) (e / (1 - e)))) ^ 2 / lambda.
Proof.
  intros LA Hsh same V W0 W dW G rk Sm lambda regul seqV table W' G' dW' Sm' seqV' a e Ho HW0 HW HD HG HS Es Er Eb Hl Hv He Ha HN EW Hc E Hc' HP.
  destruct (C72_sweep_leaves LA Hsh same V W0 W dW G rk Sm (lambda : Rnum) (1 : Rnum) regul seqV table W' G' dW' Sm' seqV') as [EW' HD']; auto.
  assert (Tf : forall X D, factors_ok V X rk -> mats_ok V D rk -> dw_count (order V) (e : Rnum) X D = Ok 0%nat -> too_far (N:=Rnum) V (e : Rnum) X D = false).
  { intros X D HX HDx H. rewrite (dw_count_ok LA V rk) in H by auto.
    apply (f_equal (fun r => match r with Ok c => (0 <? c)%nat | _ => true end)) in H. cbv beta iota in H. rewrite count_exists in H. exact H. }
  destruct (C11_sweep Rnum RL LA Hsh same V W0 W dW G rk Sm (lambda : Rnum) (1 : Rnum) regul seqV table) as (S1 & E1); auto; try (apply Reqb_eq).
  rewrite E in E1. assert (EWs : W' = fst (pp_sweep (pinv_solve (svd LA) rk) (lambda : Rnum) (1 : Rnum) V W0 rk (W, dW))) by (injection E1; auto).
  assert (ED : dW' = snd (pp_sweep (pinv_solve (svd LA) rk) (lambda : Rnum) (1 : Rnum) V W0 rk (W, dW))) by (injection E1; auto). clear E1. rewrite snd_sweep in ED.
  assert (HX' : factors_ok V W' rk) by (rewrite EWs; apply (pp_sweep_ok_mats RL LA V rk Hsh); auto).
  set (h := e / (1 - e)). assert (Hh : 0 <= h < 1).
  { unfold h. split; [apply Rmult_le_pos; [lra|left; apply Rinv_0_lt_compat; lra]|]. apply (Rmult_lt_reg_r (1 - e)); [lra|]. unfold Rdiv. rewrite Rmult_assoc, Rinv_l by lra. lra. }
  assert (HB : forall m, (m < order V)%nat -> norm2 (fac dW m) <= h * a).
  { apply (guard V rk a e) with (W0 := W0); auto; [lia|lra|apply factors_mats; auto|intros; apply HP; auto|]. rewrite <- EW. apply Tf; auto. }
  assert (HB' : forall m, (m < order V)%nat -> norm2 (fac dW' m) <= h * a).
  { apply (guard V rk a e) with (W0 := W0); auto; [lia|lra|apply factors_mats; auto|intros; apply HP; auto|]. rewrite <- EW'. apply Tf; auto. }
  pose proof (lens_of_norm V W0 dW rk HW0 (fun m Hm => proj1 (HP m Hm))) as Hlen.
  pose proof (sweep_objective LA Hsh V rk lambda 1 W0 W dW Hl ltac:(lra) HW0 HW HD (or_introl eq_refl) Hlen Hv ltac:(lia)) as H.
  rewrite <- EWs in H. eapply Rle_trans; [apply H|].
  - intros m Hm. rewrite (final_fac LA V rk (lambda : Rnum) (1 : Rnum) W0 W dW) by (auto; lia). rewrite <- ED. apply HP. auto.
  - apply Rplus_le_compat_l. rewrite Rmult_1_l. unfold Rdiv. apply Rmult_le_compat_r; [left; apply Rinv_0_lt_compat; lra|].
    set (c := norm2 V * (a ^ (order V - 1) * pp_gap (order V - 1) h)).
    eapply Rle_trans; [apply (bs_le _ _ (fun _ => c ^ 2))|].
    + intros n Hn. apply in_seq in Hn. pose proof (later_error LA Hsh V rk lambda 1 W0 W dW HW0 HW HD ltac:(lia) a h Ha Hh HN n EW ltac:(lia) HB) as K.
      rewrite <- ED in K. specialize (K HB'). fold c in K. assert (K0 : 0 <= mode_error LA V rk lambda 1 W0 W dW n) by apply norm2_pos.
      rewrite <- Rsqr_pow2. apply Rsqr_incr_1; auto. eapply Rle_trans; eauto.
    + rewrite bs_const, seq_length. apply Rle_refl.
Qed.
Print Assumptions C78_guarded_sweep.

(** ** the update of one mode, undamped: the factor that the sweep computes for mode n is within |error of its MTTKRP| / lambda of the factor
    that an exact update of alternating least squares would compute from the same factors Wn *)
Theorem C78_update_close :
  forall (LA : lapack Rnum), svd_shaped (svd LA) ->
  forall (same : bool) (V : tensor Rnum) (W0 W dW G F : list (tensor Rnum)) (rk : nat) (Sm : tensor Rnum) (lambda : R) (regul : tensor Rnum)
    (seqV : buf Z) (table : smap (tensor Rnum)) (n : nat) Wn Gn dWn Smn seqVn Wn' Gn' dWn' Smn' seqVn' M,
  (3 <= order V <= 9)%nat -> factors_ok V W0 rk -> factors_ok V W rk -> mats_ok V dW rk -> mats_ok V G rk -> zero_mats V F rk -> lens Sm = [rk; rk] ->
  mk_seqV (order V) = Ok seqV -> mk_regul rk (lambda : Rnum) = Ok regul -> build_operators same V W0 seqV = Ok table ->
  0 < lambda -> (forall m, (m < order V)%nat -> (0 < nth m (lens V) 0)%nat) -> (n < order V)%nat ->
  for_ 0 n (PP_mode LA V table W0 (lambda : Rnum) (1 : Rnum) regul seqV) (W, G, dW, Sm, seqV) = Ok (Wn, Gn, dWn, Smn, seqVn) ->
  for_ 0 (S n) (PP_mode LA V table W0 (lambda : Rnum) (1 : Rnum) regul seqV) (W, G, dW, Sm, seqV) = Ok (Wn', Gn', dWn', Smn', seqVn') ->
  pp_M V table seqV dWn (nth n (lens V) 0%nat) rk n = Ok M ->
  svd_valid (svd LA) (als_lhs (lambda : Rnum) Wn rk n) rk ->
  (forall m, m <> n -> fac Wn' m = fac Wn m) /\
  norm2 (msub (fac Wn' n) (fac (als_update (pinv_solve (svd LA) rk) (lambda : Rnum) V F rk Wn n) n)) <= norm2 (msub (mttkrp V Wn n rk) M) / lambda.
Proof.
  intros LA Hsh same V W0 W dW G F rk Sm lambda regul seqV table n Wn Gn dWn Smn seqVn Wn' Gn' dWn' Smn' seqVn' M
    Ho HW0 HW HD HG HF HS Es Er Eb Hl Hlen Hn Ef Ef' EM Hv.
  destruct (C09_operators_exact Rnum RL same V W0 rk seqV Ho HW0 Es) as (t & Et & H1 & H2 & _). rewrite Eb in Et. injection Et as <-.
  pose proof Es as Es'. rewrite mk_seqV_ok in Es'. assert (Eq : seqV = lbuf (order V)) by (injection Es'; auto). clear Es'.
  pose proof Er as Er'. rewrite (mk_regul_ok RL) in Er'. assert (Eg : regul = mscal (lambda : Rnum) (mid rk)) by (injection Er'; auto). clear Er'.
  destruct (prefix LA Hsh V rk table W0 W G dW Sm (lambda : Rnum) (1 : Rnum) n) as (Gx & Sx & Ex); auto; try (apply Reqb_eq); [lia|lia|split; auto|].
  destruct (prefix LA Hsh V rk table W0 W G dW Sm (lambda : Rnum) (1 : Rnum) (S n)) as (Gy & Sy & Ey); auto; try (apply Reqb_eq); [lia|split; auto|].
  rewrite Eq, Eg in Ef, Ef'. rewrite Ex in Ef. rewrite Ey in Ef'. clear Ex Ey.
  set (Un := pp_upto (pinv_solve (svd LA) rk) (lambda : Rnum) (1 : Rnum) V W0 rk n (W, dW)) in *.
  assert (E1 : Wn = fst Un) by (injection Ef; auto). assert (E2 : dWn = snd Un) by (injection Ef; auto). clear Ef.
  rewrite upto_S' in Ef'. fold Un in Ef'. destruct (pp_upto_ok RL V rk LA Hsh (lambda : Rnum) (1 : Rnum) W0 W dW n HW0 HW HD ltac:(lia)) as [HU1 HU2].
  fold Un in HU1, HU2. rewrite <- E1 in HU1. rewrite <- E2 in HU2. destruct Un as [Wu du]. cbn [fst snd] in E1, E2. subst Wu du.
  unfold pp_update in Ef'. cbn [fst snd] in Ef'. assert (E3 : Wn' = setf Wn n (madd (fac W0 n) (pp_step (pinv_solve (svd LA) rk) (lambda : Rnum) (1 : Rnum) V W0 rk Wn dWn n))) by (injection Ef'; auto).
  clear Ef'. assert (LW : length Wn = order V) by apply HU1.
  split; [intros m Hm; rewrite E3, fac_setf by lia; destruct (Nat.eqb_spec m n); [contradiction|reflexivity]|].
  rewrite E3. unfold als_update. rewrite !fac_setf by lia. rewrite Nat.eqb_refl.
  assert (Er2 : als_rhs V F Wn rk n = mttkrp V Wn n rk).
  { unfold als_rhs. apply (madd_zero_r RL _ _ (nth n (lens V) 0%nat) rk); [apply mttkrp_mat|]. intros; apply HF; auto. }
  rewrite Er2.
  destruct (C11_pp_mttkrp Rnum RL same V W0 dWn rk n seqV table Ho Hn HW0 HU2 Es Eb) as (M' & EM' & HM & HE). rewrite EM in EM'. injection EM' as <-.
  assert (EMp : pp_mttkrp V W0 dWn n rk = M).
  { apply (mat_ext _ _ (nth n (lens V) 0%nat) rk); auto; [apply pp_mttkrp_mat|]. intros i k Hi Hk. rewrite HE by auto.
    unfold pp_mttkrp, el at 1. rewrite at_tabulate by (apply inb2; auto). reflexivity. }
  unfold pp_step. rewrite EMp. set (S := als_lhs (lambda : Rnum) Wn rk n) in *. set (r := nth n (lens V) 0%nat) in *.
  assert (HSm : is_mat S rk rk) by apply lhs_mat.
  assert (Hs : svd_solvable (svd LA) S rk) by (apply (valid_solvable _ V); auto).
  destruct (pinv_solves RL LA Hsh M S r rk HM HSm Hs) as [HX EX].
  destruct (pinv_solves RL LA Hsh (mttkrp V Wn n rk) S r rk (mttkrp_mat _ _ _ _) HSm Hs) as [HX1 EX1].
  assert (HA0 : is_mat (fac W0 n) r rk) by (apply HW0; auto).
  assert (EU : madd (fac W0 n) (mscal (1 : Rnum) (msub (pinv_solve (svd LA) rk M S) (fac W0 n))) = pinv_solve (svd LA) rk M S).
  { set (Y := pinv_solve (svd LA) rk M S) in *. apply (mat_ext _ _ r rk); [apply madd_mat; auto|auto|]. intros i j Hi Hj.
    rewrite (el_madd _ _ r rk), (el_mscal _ _ r rk), (el_msub _ _ r rk) by (auto; apply msub_mat'; auto).
    generalize (el (fac W0 n) i j) (el Y i j). intros x y. change (x + 1 * (y - x) = y). ring. }
  rewrite EU. apply (inexact_close V Wn rk n lambda HU1 Hn Hl _ _ HM HX EX _ HX1 EX1).
Qed.
Print Assumptions C78_update_close.

(** ** a case: tensor with the single entry 11/5, checkpoint factors 1, lambda = 1, tol_init = 1/5.  The sweep moves the first factor to 11/10 *)
Lemma lhsL (x y z t : R) n : (n < 4)%nat -> als_lhs (1 : Rnum) (four x y z t) 1 n = one_by_one (bp (others n 4) (fun m => el (fac (four x y z t) m) 0 0 * el (fac (four x y z t) m) 0 0 + 0) + 1 * 1).
Proof. intros Hn. do 4 (destruct n as [|n]; [reflexivity|]). lia. Qed.
Lemma pinv_2 m s (M S : R) : M = m -> S = s -> 0 < s -> solve1 (one_by_one M) (one_by_one S) = one_by_one (m / s).
Proof. intros -> ->. apply pinv_1. Qed.
Lemma sq1_pos a : 0 < a * a + 1.
Proof. pose proof (Rle_0_sqr a) as H. unfold Rsqr in H. lra. Qed.
Lemma uL0 v x y z t d0 d1 d2 d3 : let X := v * (1 + d1 + d2 + d3) / ((y * z * t) * (y * z * t) + 1) in
  pp_update solve1 (1 : Rnum) (1 : Rnum) (single v) ones 1 (four x y z t, four d0 d1 d2 d3) 0 = (four X y z t, four (X - 1) d1 d2 d3).
Proof.
  intros X. unfold pp_update, pp_step. rewrite ppm, lhsL by lia.
  rewrite (pinv_2 (v * (1 + d1 + d2 + d3)) ((y * z * t) * (y * z * t) + 1)); [|cbn; ring|cbn; ring|apply sq1_pos].
  fold X. change (fac ones 0) with (one_by_one 1). rewrite sub1, scal1, add1.
  replace (1 + 1 * (X - 1)) with X by ring. replace (1 * (X - 1)) with (X - 1) by ring. reflexivity.
Qed.
Lemma uL1 v x y z t d0 d1 d2 d3 : let X := v * (1 + d0 + d2 + d3) / ((x * z * t) * (x * z * t) + 1) in
  pp_update solve1 (1 : Rnum) (1 : Rnum) (single v) ones 1 (four x y z t, four d0 d1 d2 d3) 1 = (four x X z t, four d0 (X - 1) d2 d3).
Proof.
  intros X. unfold pp_update, pp_step. rewrite ppm, lhsL by lia.
  rewrite (pinv_2 (v * (1 + d0 + d2 + d3)) ((x * z * t) * (x * z * t) + 1)); [|cbn; ring|cbn; ring|apply sq1_pos].
  fold X. change (fac ones 1) with (one_by_one 1). rewrite sub1, scal1, add1.
  replace (1 + 1 * (X - 1)) with X by ring. replace (1 * (X - 1)) with (X - 1) by ring. reflexivity.
Qed.
Lemma uL2 v x y z t d0 d1 d2 d3 : let X := v * (1 + d0 + d1 + d3) / ((x * y * t) * (x * y * t) + 1) in
  pp_update solve1 (1 : Rnum) (1 : Rnum) (single v) ones 1 (four x y z t, four d0 d1 d2 d3) 2 = (four x y X t, four d0 d1 (X - 1) d3).
Proof.
  intros X. unfold pp_update, pp_step. rewrite ppm, lhsL by lia.
  rewrite (pinv_2 (v * (1 + d0 + d1 + d3)) ((x * y * t) * (x * y * t) + 1)); [|cbn; ring|cbn; ring|apply sq1_pos].
  fold X. change (fac ones 2) with (one_by_one 1). rewrite sub1, scal1, add1.
  replace (1 + 1 * (X - 1)) with X by ring. replace (1 * (X - 1)) with (X - 1) by ring. reflexivity.
Qed.
Lemma uL3 v x y z t d0 d1 d2 d3 : let X := v * (1 + d0 + d1 + d2) / ((x * y * z) * (x * y * z) + 1) in
  pp_update solve1 (1 : Rnum) (1 : Rnum) (single v) ones 1 (four x y z t, four d0 d1 d2 d3) 3 = (four x y z X, four d0 d1 d2 (X - 1)).
Proof.
  intros X. unfold pp_update, pp_step. rewrite ppm, lhsL by lia.
  rewrite (pinv_2 (v * (1 + d0 + d1 + d2)) ((x * y * z) * (x * y * z) + 1)); [|cbn; ring|cbn; ring|apply sq1_pos].
  fold X. change (fac ones 3) with (one_by_one 1). rewrite sub1, scal1, add1.
  replace (1 + 1 * (X - 1)) with X by ring. replace (1 * (X - 1)) with (X - 1) by ring. reflexivity.
Qed.
Definition vv : R := 11 / 5.
Lemma quot_le (m s c : R) : 0 < s -> m <= c * s -> m / s <= c.
Proof. intros Hs H. apply (Rmult_le_reg_r s); auto. unfold Rdiv. rewrite Rmult_assoc, Rinv_l by lra. lra. Qed.
Lemma quot_ge (m s c : R) : 0 < s -> c * s <= m -> c <= m / s.
Proof. intros Hs H. apply (Rmult_le_reg_r s); auto. unfold Rdiv. rewrite Rmult_assoc, Rinv_l by lra. lra. Qed.
Lemma case_upto : exists x1 x2 x3, 1 <= x1 <= 6 / 5 /\ 1 <= x2 <= 6 / 5 /\ 1 <= x3 <= 6 / 5 /\
  pp_upto solve1 (1 : Rnum) (1 : Rnum) (single vv) ones 1 4 (ones, four 0 0 0 0)
  = (four (11 / 10) x1 x2 x3, four (11 / 10 - 1) (x1 - 1) (x2 - 1) (x3 - 1)).
Proof.
  unfold pp_upto. cbn [seq fold_left]. change ones with (four 1 1 1 1) at 5. unfold vv.
  rewrite uL0. replace (11 / 5 * (1 + 0 + 0 + 0) / (1 * 1 * 1 * (1 * 1 * 1) + 1)) with (11 / 10) by field.
  rewrite uL1. replace (11 / 5 * (1 + (11 / 10 - 1) + 0 + 0) / (11 / 10 * 1 * 1 * (11 / 10 * 1 * 1) + 1)) with (242 / 221) by field.
  rewrite uL2. replace (11 / 5 * (1 + (11 / 10 - 1) + (242 / 221 - 1) + 0) / (11 / 10 * (242 / 221) * 1 * (11 / 10 * (242 / 221) * 1) + 1)) with (6420271 / 5985172) by field.
  rewrite uL3. eexists _, _, _. split; [|split; [|split; [|reflexivity]]]; try lra.
Qed.
Lemma case_count x d0 d1 d2 d3 : 1 <= x -> 0 <= d0 <= / 5 -> 0 <= d1 <= / 5 -> 0 <= d2 <= / 5 -> 0 <= d3 <= / 5 ->
  dw_count 4 (/ 5 : Rnum) (four x x x x) (four d0 d1 d2 d3) = Ok 0%nat.
Proof.
  intros Hx H0 H1 H2 H3.
  assert (K : forall y, 0 <= y <= / 5 -> Rltb (/ 5) (Rabs (norm2 (one_by_one y) / norm2 (one_by_one x))) = false).
  { intros y Hy. rewrite (norm1 x), (norm1 y) by lra. assert (P : 0 <= y / x) by (apply quot_ge; lra). assert (Q : y / x <= / 5) by (apply quot_le; lra).
    rewrite Rabs_pos_eq by auto. destruct (Rltb_spec (/ 5) (y / x)) as [L|]; auto. lra. }
  rewrite (dw_count_ok LA1 (single 1) 1); [|apply four_ok|apply four_mats]. f_equal.
  change (length (filter (fun m => Rltb (/ 5) (Rabs (norm2 (fac (four d0 d1 d2 d3) m) / norm2 (fac (four x x x x) m)))) [0; 1; 2; 3]%nat) = 0%nat). cbn [filter].
  change (fac (four d0 d1 d2 d3) 0) with (one_by_one d0). change (fac (four d0 d1 d2 d3) 1) with (one_by_one d1). change (fac (four d0 d1 d2 d3) 2) with (one_by_one d2). change (fac (four d0 d1 d2 d3) 3) with (one_by_one d3).
  change (fac (four x x x x) 0) with (one_by_one x). change (fac (four x x x x) 1) with (one_by_one x). change (fac (four x x x x) 2) with (one_by_one x). change (fac (four x x x x) 3) with (one_by_one x).
  rewrite !K by auto. reflexivity.
Qed.
Theorem C78_case :
  exists seqV regul table W' G' dW' Sm' seqV',
  let V := single vv in let dW := zmats V 1 in let G := four 0 0 0 0 in
  (3 <= order V <= 9)%nat /\ factors_ok V ones 1 /\ mats_ok V dW 1 /\ mats_ok V G 1 /\ lens (one_by_one 0) = [1; 1]%nat /\
  mk_seqV (order V) = Ok seqV /\ mk_regul (N:=Rnum) 1 (1 : Rnum) = Ok regul /\ build_operators false V ones seqV = Ok table /\
  pp_systems_valid (svd LA1) 1 1 V ones 1 ones dW /\ 0 <= / 5 < / 2 /\ (forall m, (m < order V)%nat -> norm2 (fac ones m) = 1) /\
  ones = rescaled (perturbed ones dW) /\ dw_count (order V) (/ 5 : Rnum) ones dW = Ok 0%nat /\
  PP_sweep LA1 V table ones (1 : Rnum) (1 : Rnum) regul seqV ones G dW (one_by_one 0) seqV = Ok (W', G', dW', Sm', seqV') /\
  dw_count (order V) (/ 5 : Rnum) W' dW' = Ok 0%nat /\
  (forall m, (m < order V)%nat -> norm2 (madd (fac ones m) (fac dW m)) <> 0 /\ norm2 (madd (fac ones m) (fac dW' m)) <> 0) /\
  norm2 (fac dW' 0) = / 10.
Proof.
  destruct case_upto as (x1 & x2 & x3 & H1 & H2 & H3 & EU).
  destruct (C09_operators_exact Rnum RL false (single vv) ones 1 (lbuf 4) ltac:(cbn; lia) (four_ok _ _ _ _ _) (mk_seqV_ok 4)) as (table & Et & _).
  destruct (C11_sweep Rnum RL LA1 LA1_svd_shaped false (single vv) ones ones (four 0 0 0 0) (four 0 0 0 0) 1 (one_by_one 0) (1 : Rnum) (1 : Rnum) (mscal (1 : Rnum) (mid 1)) (lbuf 4) table
     ltac:(cbn; lia) (Reqb_eq _ _) (Reqb_eq _ _) (four_ok _ _ _ _ _) (four_ok _ _ _ _ _) (four_mats _ _ _ _ _) (four_mats _ _ _ _ _) eq_refl (mk_seqV_ok 4) (mk_regul_ok RL 1 _) Et) as (S1 & E1).
  set (p := 11 / 10 * x1 * x2 * x3).
  assert (P1 : 1 <= p).
  { unfold p. assert (A : 1 * 1 <= (11 / 10) * x1) by (apply Rmult_le_compat; lra). assert (B : 1 * 1 <= (11 / 10 * x1) * x2) by (apply Rmult_le_compat; lra).
    assert (C : 1 * 1 <= (11 / 10 * x1 * x2) * x3) by (apply Rmult_le_compat; lra). lra. }
  set (g := Rroot 4 p). assert (EG : g ^ 4 = p) by (apply Rroot_pow; [lia|lra]).
  assert (G1 : 1 <= g) by (apply (pow_le_inv _ _ 4); try apply Rroot_nonneg; try lia; try lra; rewrite EG; lra).
  assert (ES : pp_sweep solve1 (1 : Rnum) (1 : Rnum) (single vv) ones 1 (ones, four 0 0 0 0) = (four g g g g, four (11 / 10 - 1) (x1 - 1) (x2 - 1) (x3 - 1))).
  { unfold pp_sweep. change (order (single vv)) with 4%nat. rewrite EU. rewrite (rescaled_four _ _ _ _ g); auto; lra. }
  rewrite ES in E1. cbn [fst snd] in E1.
  exists (lbuf 4), (mscal (1 : Rnum) (mid 1)), table. do 5 eexists. cbv zeta.
  assert (EZ : zmats (single vv) 1 = four 0 0 0 0) by reflexivity. rewrite EZ.
  split; [cbn; lia|]. split; [apply four_ok|]. split; [apply four_mats|]. split; [apply four_mats|]. split; [reflexivity|].
  split; [apply mk_seqV_ok|]. split; [apply (mk_regul_ok RL)|]. split; [exact Et|].
  split; [intros n Hn; apply LA1_valid, lhs_mat|]. split; [lra|].
  split. { intros m Hm. cbn in Hm. do 4 (destruct m as [|m]; [apply norm1; lra|]). lia. }
  split. { symmetry. change (perturbed ones (four 0 0 0 0)) with (four (1 + 0) (1 + 0) (1 + 0) (1 + 0)). rewrite Rplus_0_r. apply (rescaled_four 1 1 1 1 1); lra. }
  split; [apply (case_count 1 0 0 0 0); lra|]. split; [exact E1|]. split; [apply case_count; lra|].
  split. { intros m Hm. cbn in Hm. do 4 (destruct m as [|m]; [unfold ones; cbn [fac four nth]; rewrite !add1, !norm1 by lra; split; lra|]). lia. }
  change (norm2 (one_by_one (11 / 10 - 1)) = / 10). rewrite norm1 by lra. lra.
Qed.
Print Assumptions C78_case.
(** the constant: for order 4 and perturbations of at most one percent the MTTKRPs are within 7% of |V| times the norms of the other factors; without perturbations there is no error *)
Theorem C78_gap_small : pp_gap 3 (/ 100) <= 7 / 100 /\ pp_gap 3 0 = 0.
Proof. unfold pp_gap. split; cbn [pow INR]; [|field]. lra. Qed.
