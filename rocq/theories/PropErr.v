(** C72: the pairwise-perturbation expansions are second-order accurate with an explicit constant, in terms of the norms of the
    input tensor, the checkpoint factors and the perturbations; and the distance guard of the approximate phase bounds the perturbations. *)
From Coq Require Import List ZArith Lia Bool Arith Reals Lra.
From Verif Require Import Base Num NumR Tensor Spec Spec2 Spec4 Spec7 Spec8 Spec9 Spec12 Spec18 Spec20 MCommon MCP MTucker PBase PTensor PSum PMttkrp PPart PMat PMatAlg PResid PGrad PRank PNormalize PALS
  PMono PMono2 PTree PDT PDTSweep PDrivers PPP PPPSweep PPPDriver PDriverRef PTtm PTucker PTSweep PTPP PTPP2 PTuckMono PConv PConv2 PPPMulti PErr PErr2 PropPP PropTucker2.
Import ListNotations.
Local Open Scope R_scope.
Local Notation RL := Rnum_ring.

(** ** C72.  The MTTKRP that a sweep of the approximate phase uses for mode n, with operators built at the checkpoint W0 and
    perturbations dW, differs from the exact MTTKRP of the factors W0 + dW by at most
    |V| * second_order(|W0_m|, |dW_m| for m <> n) *)
Theorem C72_mttkrp_error :
  forall (same : bool) (V : tensor Rnum) (W0 dW : list (tensor Rnum)) (rk n : nat) (seqV : buf Z) (table : smap (tensor Rnum)),
  (3 <= order V <= 9)%nat -> (n < order V)%nat -> factors_ok V W0 rk -> mats_ok V dW rk ->
  mk_seqV (order V) = Ok seqV -> build_operators same V W0 seqV = Ok table ->
  exists M, pp_M V table seqV dW (nth n (lens V) 0%nat) rk n = Ok M /\
    norm2 (msub (mttkrp V (perturbed W0 dW) n rk) M)
    <= norm2 V * second_order (others n (order V)) (fun m => norm2 (fac W0 m)) (fun m => norm2 (fac dW m)).
Proof.
  intros same V W0 dW rk n seqV table Ho Hn HW HD Es Eb.
  destruct (C11_pp_mttkrp Rnum RL same V W0 dW rk n seqV table Ho Hn HW HD Es Eb) as (M & EM & HM & HE).
  exists M. split; [exact EM|].
  assert (E : M = pp_mttkrp V W0 dW n rk).
  { apply (mat_ext _ _ (nth n (lens V) 0%nat) rk); auto; [apply pp_mttkrp_mat|]. intros i k Hi Hk. rewrite HE by auto.
    unfold pp_mttkrp, el at 3. rewrite at_tabulate by (apply inb2; auto). reflexivity. }
  rewrite E. apply pp_mttkrp_error; auto; [lia|apply HW|]. destruct HW as (_ & H1 & H2). split; auto.
Qed.
Print Assumptions C72_mttkrp_error.

(** perturbations of relative size at most e: the error is at most |V| * prod |W0_m| * (p(p-1)/2) e^2 (1+e)^p with p = order - 1 *)
Lemma relative ms (a d : nat -> R) e : NoDup ms -> 0 <= e -> (forall m, In m ms -> 0 <= a m) -> (forall m, In m ms -> 0 <= d m <= e * a m) ->
  second_order ms a d <= bigprod (N:=Rnum) ms a * (INR (length ms) * (INR (length ms) - 1) / 2 * (e * e) * (1 + e) ^ length ms).
Proof.
  intros Hn He Ha Hd. eapply Rle_trans; [apply (second_order_mono ms a a d (fun m => e * a m)); auto; intros; split; auto; apply Rle_refl|].
  rewrite second_order_scaled by auto. apply Rmult_le_compat_l; [apply bp_nonneg; auto|]. apply binomial_tail; auto.
Qed.
Theorem C72_relative_error :
  forall (same : bool) (V : tensor Rnum) (W0 dW : list (tensor Rnum)) (rk n : nat) (seqV : buf Z) (table : smap (tensor Rnum)) (e : R),
  (3 <= order V <= 9)%nat -> (n < order V)%nat -> factors_ok V W0 rk -> mats_ok V dW rk ->
  mk_seqV (order V) = Ok seqV -> build_operators same V W0 seqV = Ok table ->
  0 <= e -> (forall m, (m < order V)%nat -> m <> n -> norm2 (fac dW m) <= e * norm2 (fac W0 m)) ->
  let p := INR (order V - 1) in
  exists M, pp_M V table seqV dW (nth n (lens V) 0%nat) rk n = Ok M /\
    norm2 (msub (mttkrp V (perturbed W0 dW) n rk) M)
    <= norm2 V * (bigprod (N:=Rnum) (others n (order V)) (fun m => norm2 (fac W0 m)) * (p * (p - 1) / 2 * (e * e) * (1 + e) ^ (order V - 1))).
Proof.
  intros same V W0 dW rk n seqV table e Ho Hn HW HD Es Eb He Hd p.
  destruct (C72_mttkrp_error same V W0 dW rk n seqV table Ho Hn HW HD Es Eb) as (M & EM & HM). exists M. split; [exact EM|].
  eapply Rle_trans; [exact HM|]. apply Rmult_le_compat_l; [apply norm2_pos|].
  assert (L : length (others n (order V)) = (order V - 1)%nat) by (apply others_length; auto). unfold p. rewrite <- L.
  apply relative; auto; [apply others_nodup|intros; apply norm2_pos|]. intros m Hm. apply others_in in Hm as [H1 H2]. split; [apply norm2_pos|]. apply Hd; auto.
Qed.
Print Assumptions C72_relative_error.

(** the same for the Tucker expansion: the input of the update of mode n *)
Theorem C72_tucker_error :
  forall (V : tensor Rnum) (W0 dW : list (tensor Rnum)) (ranks : list nat) (n : nat) (seqV : buf Z) (table : smap (tensor Rnum)),
  (3 <= order V <= 9)%nat -> (n < order V)%nat -> tucker_ok V W0 ranks -> tmats_ok V ranks dW ->
  mk_seqV (order V) = Ok seqV -> build_ttmc_operators V W0 seqV = Ok table ->
  exists Y, pp_Y V table seqV seqV dW n = Ok (Y, seqV) /\
    norm2 (msub (ttmc V (perturbed W0 dW) (others n (order V))) Y)
    <= norm2 V * second_order (others n (order V)) (fun m => norm2 (fac W0 m)) (fun m => norm2 (fac dW m)).
Proof.
  intros V W0 dW ranks n seqV table Ho Hn HW HD Es Eb.
  destruct (C31_expansion Rnum RL V W0 dW ranks n seqV table Ho Hn HW HD Es Eb) as (Y & EY & HwY & HlY & HE). exists Y. split; [exact EY|].
  assert (E : Y = pp_ttmc V W0 dW n).
  { apply tensor_ext; auto; [apply tabulate_wf| |].
    - rewrite HlY, pp_ttmc_lens. apply (Y_lens V ranks); auto; lia.
    - intros idx Hi. rewrite HE by auto. unfold pp_ttmc. rewrite at_tabulate; [reflexivity|].
      rewrite HlY in Hi. rewrite (Y_lens V ranks ltac:(lia) W0 n HW Hn) in Hi. exact Hi. }
  rewrite E. destruct HW as (HV & LW & LR & HM). destruct HD as [LD HDm]. apply (pp_ttmc_error V ranks n); auto; try lia; split; auto.
Qed.
Print Assumptions C72_tucker_error.

(** ** the guard.  A sweep around the checkpoint W0 leaves the rescaled factors W0 + dW', with dW' the perturbations it leaves; so does the
    checkpoint itself, with dW = 0, when its factors have the same norm (which Normalize sees to) *)
Lemma Reqb_eq (x y : Rnum) : neqb x y = true -> x = y.
Proof. change (neqb x y) with (Reqb x y). destruct (Reqb_spec x y); auto. discriminate. Qed.
Theorem C72_sweep_leaves :
  forall (LA : lapack Rnum), svd_shaped (svd LA) ->
  forall (same : bool) (V : tensor Rnum) (W0 W dW G : list (tensor Rnum)) (rk : nat) (Sm : tensor Rnum) (lambda ratio : Rnum) (regul : tensor Rnum)
    (seqV : buf Z) (table : smap (tensor Rnum)) W' G' dW' Sm' seqV',
  (3 <= order V <= 9)%nat -> factors_ok V W0 rk -> factors_ok V W rk -> mats_ok V dW rk -> mats_ok V G rk -> lens Sm = [rk; rk] ->
  mk_seqV (order V) = Ok seqV -> mk_regul rk lambda = Ok regul -> build_operators same V W0 seqV = Ok table ->
  PP_sweep LA V table W0 lambda ratio regul seqV W G dW Sm seqV = Ok (W', G', dW', Sm', seqV') ->
  W' = rescaled (perturbed W0 dW') /\ mats_ok V dW' rk.
Proof.
  intros LA Hsh same V W0 W dW G rk Sm lambda ratio regul seqV table W' G' dW' Sm' seqV' Ho HW0 HW HD HG HS Es Er Eb E.
  destruct (C11_sweep Rnum RL LA Hsh same V W0 W dW G rk Sm lambda ratio regul seqV table) as (S1 & E1); auto.
  { apply Reqb_eq. } { apply Reqb_eq. }
  rewrite E in E1. injection E1 as -> -> -> -> ->.
  split; [apply sweep_leaves; auto; [apply factors_mats|apply factors_mats]; auto|].
  unfold pp_sweep. destruct (pp_upto_ok RL V rk LA Hsh lambda ratio W0 W dW (order V)) as [_ H]; auto.
  destruct (pp_upto _ _ _ _ _ _ _ _). exact H.
Qed.
Print Assumptions C72_sweep_leaves.
Lemma mscal_one (A : tensor Rnum) : wf A -> mscal (N:=Rnum) 1 A = A.
Proof.
  intros HA. apply tensor_ext; [apply tabulate_wf|exact HA|reflexivity|]. intros x Hx. unfold mscal. rewrite at_tabulate by exact Hx.
  change (1 * at_ A x = at_ A x). apply Rmult_1_l.
Qed.
Lemma root_same (g : R) n : (1 <= n)%nat -> 0 < g -> Rroot n (g ^ n) = g.
Proof.
  intros Hn Hg. apply Rle_antisym.
  - apply (pow_le_inv _ _ n); auto; [apply Rroot_nonneg|lra|]. rewrite Rroot_pow; [lra|lia|]. apply pow_le. lra.
  - apply (pow_le_inv _ _ n); auto; [lra|apply Rroot_nonneg|]. rewrite Rroot_pow; [lra|lia|]. apply pow_le. lra.
Qed.
Theorem C72_start :
  forall (V : tensor Rnum) (W0 : list (tensor Rnum)) (rk : nat) (a : R),
  (1 <= order V)%nat -> factors_ok V W0 rk -> 0 < a -> (forall m, (m < order V)%nat -> norm2 (fac W0 m) = a) ->
  W0 = rescaled (perturbed W0 (zmats V rk)).
Proof.
  intros V W0 rk a Ho HW Ha HN. pose proof HW as (HV & LW & HM).
  assert (E : perturbed W0 (zmats V rk) = W0).
  { apply (list_fac_ext _ _ (order V)); auto; [unfold perturbed; rewrite map_length, seq_length; auto|]. intros m Hm. unfold perturbed. rewrite LW.
    rewrite (fac_map_seq (fun m => madd (fac W0 m) (fac (zmats V rk) m))) by auto.
    apply (mat_ext _ _ (nth m (lens V) 0%nat) rk); auto; [apply madd_mat; auto|]. intros i j Hi Hj. rewrite (el_madd _ _ _ _ _ _ (HM m Hm)) by auto.
    unfold zmats. rewrite (fac_map_seq (fun n => zeros [nth n (lens V) 0%nat; rk])) by auto. unfold el at 2. unfold zeros. rewrite at_tabulate by (apply inb2; auto). apply Rplus_0_r. }
  rewrite E. unfold rescaled. assert (B : bigprod (N:=Rnum) W0 norm2 = a ^ length W0).
  { rewrite <- bp_const. apply bp_ext. intros A HA. destruct (In_nth _ _ tnil HA) as (q & Hq & <-). apply HN. lia. }
  rewrite B. change (nroot (n:=Rnum)) with Rroot. rewrite root_same by (auto; lia). change (ndiv (n:=Rnum)) with Rdiv.
  rewrite <- (map_id W0) at 1. apply map_ext_in. intros A HA. destruct (In_nth _ _ tnil HA) as (q & Hq & EA). fold (fac W0 q) in EA. rewrite LW in Hq.
  assert (K : a / norm2 A = 1) by (rewrite <- EA, HN by auto; field; lra). rewrite K. symmetry. apply mscal_one. rewrite <- EA. apply HM. auto.
Qed.
Print Assumptions C72_start.

(** the approximate phase goes on after a sweep only if no factor is further than tol_init = e from the checkpoint.  Then every MTTKRP used in
    that sweep, for the perturbations dWn present when mode n is updated, is within |V| a^p (p(p-1)/2) (e/(1-e))^2 (1+e/(1-e))^p of the exact one *)
Lemma snd_sweep {N : num} solve (lambda ratio : N) V W0 rk st : snd (pp_sweep solve lambda ratio V W0 rk st) = snd (pp_upto solve lambda ratio V W0 rk (order V) st).
Proof. unfold pp_sweep. destruct (pp_upto _ _ _ _ _ _ _ _). reflexivity. Qed.
Theorem C72_guarded_sweep :
  forall (LA : lapack Rnum), svd_shaped (svd LA) ->
  forall (same : bool) (V : tensor Rnum) (W0 W dW G : list (tensor Rnum)) (rk : nat) (Sm : tensor Rnum) (lambda ratio : Rnum) (regul : tensor Rnum)
    (seqV : buf Z) (table : smap (tensor Rnum)) W' G' dW' Sm' seqV' (a e : R) (n : nat) Wn Gn dWn Smn seqVn M,
  (3 <= order V <= 9)%nat -> factors_ok V W0 rk -> factors_ok V W rk -> mats_ok V dW rk -> mats_ok V G rk -> lens Sm = [rk; rk] ->
  mk_seqV (order V) = Ok seqV -> mk_regul rk lambda = Ok regul -> build_operators same V W0 seqV = Ok table ->
  0 <= e < 1 -> 0 < a -> (forall m, (m < order V)%nat -> norm2 (fac W0 m) = a) ->
  W = rescaled (perturbed W0 dW) -> dw_count (order V) (e : Rnum) W dW = Ok 0%nat ->
  PP_sweep LA V table W0 lambda ratio regul seqV W G dW Sm seqV = Ok (W', G', dW', Sm', seqV') ->
  dw_count (order V) (e : Rnum) W' dW' = Ok 0%nat ->
  (forall m, (m < order V)%nat -> norm2 (madd (fac W0 m) (fac dW m)) <> 0 /\ norm2 (madd (fac W0 m) (fac dW' m)) <> 0) ->
  (n < order V)%nat ->
  for_ 0 n (PP_mode LA V table W0 lambda ratio regul seqV) (W, G, dW, Sm, seqV) = Ok (Wn, Gn, dWn, Smn, seqVn) ->
  pp_M V table seqV dWn (nth n (lens V) 0%nat) rk n = Ok M ->
  let p := INR (order V - 1) in let h := e / (1 - e) in
  norm2 (msub (mttkrp V (perturbed W0 dWn) n rk) M) <= norm2 V * (a ^ (order V - 1) * (p * (p - 1) / 2 * (h * h) * (1 + h) ^ (order V - 1))).
Proof.
  intros LA Hsh same V W0 W dW G rk Sm lambda ratio regul seqV table W' G' dW' Sm' seqV' a e n Wn Gn dWn Smn seqVn M
    Ho HW0 HW HD HG HS Es Er Eb He Ha HN EW Hc Esw Hc' HP Hn Ef EM p h.
  destruct (C72_sweep_leaves LA Hsh same V W0 W dW G rk Sm lambda ratio regul seqV table W' G' dW' Sm' seqV') as [EW' HD']; auto.
  assert (Tf : forall X D, factors_ok V X rk -> mats_ok V D rk -> dw_count (order V) (e : Rnum) X D = Ok 0%nat -> too_far (N:=Rnum) V (e : Rnum) X D = false).
  { intros X D HX HDx H. rewrite (dw_count_ok LA V rk) in H by auto.
    apply (f_equal (fun r => match r with Ok c => (0 <? c)%nat | _ => true end)) in H. cbv beta iota in H. rewrite count_exists in H. exact H. }
  assert (HB : forall m, (m < order V)%nat -> norm2 (fac dW m) <= h * a).
  { apply (guard V rk a e) with (W0 := W0); auto; [lia|apply factors_mats; auto|intros; apply HP; auto|]. rewrite <- EW. apply Tf; auto. }
  assert (HX' : factors_ok V W' rk).
  { destruct (C11_sweep Rnum RL LA Hsh same V W0 W dW G rk Sm lambda ratio regul seqV table) as (S1 & E1); auto; try (apply Reqb_eq).
    rewrite Esw in E1. injection E1 as -> _ _ _ _. apply (pp_sweep_ok_mats RL LA V rk Hsh); auto. }
  assert (HB' : forall m, (m < order V)%nat -> norm2 (fac dW' m) <= h * a).
  { apply (guard V rk a e) with (W0 := W0); auto; [lia|apply factors_mats; auto|intros; apply HP; auto|]. rewrite <- EW'. apply Tf; auto. }
  destruct (C09_operators_exact Rnum RL same V W0 rk seqV Ho HW0 Es) as (t & Et & H1 & H2 & _). rewrite Eb in Et. injection Et as <-.
  destruct (C11_sweep Rnum RL LA Hsh same V W0 W dW G rk Sm lambda ratio regul seqV table) as (S1 & E1); auto; try (apply Reqb_eq).
  rewrite Esw in E1. assert (ED' : dW' = snd (pp_sweep (pinv_solve (svd LA) rk) lambda ratio V W0 rk (W, dW))) by (injection E1; auto). clear E1.
  pose proof Es as Es'. rewrite mk_seqV_ok in Es'. assert (Eq : seqV = lbuf (order V)) by (injection Es'; auto). clear Es'.
  pose proof Er as Er'. rewrite (mk_regul_ok RL) in Er'. assert (Eg : regul = mscal lambda (mid rk)) by (injection Er'; auto). clear Er'.
  destruct (prefix LA Hsh V rk table W0 W G dW Sm lambda ratio n) as (Gx & Sx & Ex); auto; try (apply Reqb_eq); [lia|lia|split; auto|].
  rewrite Eq, Eg in Ef. rewrite Ex in Ef. assert (EDn : dWn = snd (pp_upto (pinv_solve (svd LA) rk) lambda ratio V W0 rk n (W, dW))) by (injection Ef; auto). clear Ef Ex Gx Sx.
  assert (HDn : mats_ok V dWn rk) by (rewrite EDn; apply (pp_upto_ok RL V rk LA Hsh lambda ratio W0 W dW n); auto; lia).
  assert (Hdn : forall m, (m < order V)%nat -> norm2 (fac dWn m) <= h * a).
  { intros m Hm. rewrite EDn. rewrite (upto_snd V rk); [|apply HW|apply HD|auto|lia]. destruct (m <? n)%nat; [|auto].
    assert (K : snd (pp_upto (pinv_solve (svd LA) rk) lambda ratio V W0 rk (order V) (W, dW)) = dW'); [|rewrite K; auto].
    rewrite ED'. symmetry. apply snd_sweep. }
  assert (H0 : 0 <= h) by (unfold h; apply Rmult_le_pos; [lra|apply Rlt_le, Rinv_0_lt_compat; lra]).
  destruct (C72_relative_error same V W0 dWn rk n seqV table h) as (M' & EM' & HM'); auto.
  { intros m Hm _. rewrite (HN m Hm). auto. }
  rewrite EM in EM'. injection EM' as <-. eapply Rle_trans; [exact HM'|]. apply Rmult_le_compat_l; [apply norm2_pos|]. apply Req_le. fold p. f_equal.
  rewrite <- (others_length n (order V)) by auto. rewrite <- bp_const. apply bp_ext. intros m Hm. apply others_in in Hm as [Hm _]. auto.
Qed.
Print Assumptions C72_guarded_sweep.
