(** Property theorems: a sweep of alternating least squares (C86), Normalize (C87) and the normal equations (C88) in rounded arithmetic *)
From Coq Require Import List ZArith Lia Bool Arith Permutation Reals Lra.
From Verif Require Import Base Num NumR Tensor Spec Spec27 Spec28 Spec29 Spec30 MCommon MCP PBase PTensor PGrad PSolve PMat PMatAlg PALS PTree PDT PGrad PDrivers PRnd PRndDT PRndDT2 PRndNorm
  PRndALS PRndALS2 PRndALS3 PRndBal PRndNE PropRnd PropRnd2.
Import ListNotations.
Local Close Scope R_scope.
Local Open Scope nat_scope.

(** ** C86 *)
(** one solve: A = M V^-T s^-1 U^T through whatever decomposition LAPACK returned *)
Theorem C86_solve_rounded :
  forall (rnd : R -> R) (u : R), rel_err rnd u ->
  forall (LA : lapack (Fl rnd)) (M W S : tensor (Fl rnd)) (r k : nat),
  svd_shaped (svd LA) -> is_mat M r k -> lens W = [r; k] -> is_mat S k k ->
  exists A, SVD_solve LA M W S = Ok A /\
    let '(U, s, VT) := svd LA S k in
    mat_within u (2 * k + 8) r k A
      (@pinv_solve Rnum (fun _ _ => (reals U, reals s, reals VT)) k (reals M) (reals S))
      (@pinv_solve Rnum (fun _ _ => (absols U, absols s, absols VT)) k (absols M) (absols S)).
Proof. intros rnd u RE LA M W S r k Hs HM HW HS. exact (solve_r rnd u RE LA M W S r k HM HW HS Hs). Qed.
Print Assumptions C86_solve_rounded.
Theorem C86_dimension_tree_sweep_rounded :
  forall (rnd : R -> R) (u : R), rel_err rnd u ->
  forall (LA : lapack (Fl rnd)), svd_shaped (svd LA) ->
  forall (V : tensor (Fl rnd)) (rk : nat) (F W G : list (tensor (Fl rnd))) (Sm : tensor (Fl rnd)) (lambda : Fl rnd) (fuel : nat)
    (parent sibling : smap str) (seqV : buf Z) (regul : tensor (Fl rnd)),
  order V = 4 \/ 6 <= order V <= 31 -> order V < fuel ->
  factors_ok V W rk -> mats_ok V F rk -> mats_ok V G rk -> lens Sm = [rk; rk] ->
  mk_seqV (order V) = Ok seqV -> mk_regul rk lambda = Ok regul ->
  Construct_Dimension_Tree fuel (sempty, sempty) 0 (order V - 1) = Ok (parent, sibling) ->
  exists (W' G' : list (tensor (Fl rnd))) (Sm' : tensor (Fl rnd)) (Ws : nat -> list (tensor (Fl rnd))),
    alsCP_DT_sweep LA fuel parent sibling V F regul W G Sm seqV = Ok (W', G', Sm', seqV) /\
    factors_ok V W' rk /\ mats_ok V G' rk /\ lens Sm' = [rk; rk] /\
    Ws 0 = W /\
    (forall n, n < order V ->
       als_solve_within u (mode_roundings (lens V) n) (svd LA) lambda V F rk (Ws n) n (Ws (S n)) /\
       als_grad_within u lambda V F rk (Ws n) n (fac G' n)) /\
    Normalize (Ws (order V)) (order V) = Ok W'.
Proof.
  intros rnd u RE LA Hsh V rk F W G Sm lambda fuel parent sibling seqV regul Ho Hf HW HF HG HS Es Er E.
  destruct (tree_build (order V) fuel) as (p & s & E' & Ht); [lia|lia|]. rewrite E in E'. injection E' as <- <-.
  rewrite mk_seqV_ok in Es. injection Es as <-.
  destruct (DT_sweep_r rnd u RE LA V rk Hsh parent sibling fuel Ht ltac:(lia) ltac:(lia) Hf lambda F regul G W Sm Er HW HF HG HS)
    as (W' & G' & Sm' & E1 & H1 & H2 & H3 & Ws & H4 & H5 & H6).
  exists W', G', Sm', Ws. auto 10.
Qed.
Print Assumptions C86_dimension_tree_sweep_rounded.
(** the exact phase of pairwise perturbation: no F *)
Theorem C86_exact_phase_sweep_rounded :
  forall (rnd : R -> R) (u : R), rel_err rnd u ->
  forall (LA : lapack (Fl rnd)), svd_shaped (svd LA) ->
  forall (V : tensor (Fl rnd)) (rk : nat) (W G : list (tensor (Fl rnd))) (Sm : tensor (Fl rnd)) (lambda : Fl rnd) (fuel : nat)
    (parent sibling : smap str) (seqV : buf Z) (regul : tensor (Fl rnd)),
  order V = 4 \/ 6 <= order V <= 31 -> order V < fuel ->
  factors_ok V W rk -> mats_ok V G rk -> lens Sm = [rk; rk] ->
  mk_seqV (order V) = Ok seqV -> mk_regul rk lambda = Ok regul ->
  Construct_Dimension_Tree fuel (sempty, sempty) 0 (order V - 1) = Ok (parent, sibling) ->
  exists (W' G' : list (tensor (Fl rnd))) (Sm' : tensor (Fl rnd)) (Ws : nat -> list (tensor (Fl rnd))),
    DT_sub_sweep LA fuel parent sibling V lambda regul W G Sm seqV = Ok (W', G', Sm', seqV) /\
    factors_ok V W' rk /\ mats_ok V G' rk /\ lens Sm' = [rk; rk] /\
    Ws 0 = W /\
    (forall n, n < order V ->
       als_solve_within u (mode_roundings (lens V) n) (svd LA) lambda V [] rk (Ws n) n (Ws (S n)) /\
       als_grad_within u lambda V [] rk (Ws n) n (fac G' n)) /\
    Normalize (Ws (order V)) (order V) = Ok W'.
Proof.
  intros rnd u RE LA Hsh V rk W G Sm lambda fuel parent sibling seqV regul Ho Hf HW HG HS Es Er E.
  destruct (tree_build (order V) fuel) as (p & s & E' & Ht); [lia|lia|]. rewrite E in E'. injection E' as <- <-.
  rewrite mk_seqV_ok in Es. injection Es as <-.
  destruct (DT_sub_sweep_r rnd u RE LA V rk Hsh parent sibling fuel Ht ltac:(lia) ltac:(lia) Hf lambda regul G W Sm Er HW HG HS)
    as (W' & G' & Sm' & E1 & H1 & H2 & H3 & Ws & H4 & H5 & H6).
  exists W', G', Sm', Ws. auto 10.
Qed.
Print Assumptions C86_exact_phase_sweep_rounded.
(** alsCP: direct MTTKRP, equal mode lengths, no regularisation, no normalisation *)
Theorem C86_direct_sweep_rounded :
  forall (rnd : R -> R) (u : R), rel_err rnd u ->
  forall (LA : lapack (Fl rnd)), svd_shaped (svd LA) ->
  forall (V : tensor (Fl rnd)) (rk s : nat) (F W : list (tensor (Fl rnd))) (Sm : tensor (Fl rnd)) (seqV : buf Z),
  2 <= order V <= 10 -> lens V = repeat s (order V) ->
  factors_ok V W rk -> mats_ok V F rk -> lens Sm = [rk; rk] -> mk_seqV (order V) = Ok seqV ->
  exists (W' : list (tensor (Fl rnd))) (Sm' : tensor (Fl rnd)) (Ws : nat -> list (tensor (Fl rnd))),
    alsCP_sweep LA V F (W, Sm, seqV) = Ok (W', Sm', seqV) /\ factors_ok V W' rk /\ lens Sm' = [rk; rk] /\
    Ws 0 = W /\ Ws (order V) = W' /\
    forall n, n < order V -> als_solve_within u (mode_roundings (lens V) n + 2) (svd LA) 0%R V F rk (Ws n) n (Ws (S n)).
Proof.
  intros rnd u RE LA Hsh V rk s F W Sm seqV Ho Hc HW HF HS Es.
  rewrite mk_seqV_ok in Es. injection Es as <-.
  destruct (alsCP_sweep_r rnd u RE LA V rk s Hsh Ho Hc F HF W Sm HW HS) as (W' & Sm' & E & H1 & H2 & Ws & H3 & H4 & H5).
  exists W', Sm', Ws. auto 10.
Qed.
Print Assumptions C86_direct_sweep_rounded.
Definition LA53 : lapack (Fl round53) :=
  @mkLapack (Fl round53) (fun S k => (@mid (Fl round53) k, tabulate [k] (fun x => at_ S [nth 0 x 0; nth 0 x 0]), @mid (Fl round53) k)) (fun A => A) (fun B L _ _ _ => B)
           (fun A => A) (fun _ ls => zeros ls).
Theorem C86_case :
  rel_err round53 (/ 2 ^ 53)%R /\ svd_shaped (svd LA53) /\ order rndV = 4 /\ lens rndV = repeat 2 (order rndV) /\
  factors_ok rndV rndW 2 /\ mats_ok rndV rndW 2 /\ (exists sq, mk_seqV (order rndV) = Ok sq) /\
  (exists regul, @mk_regul (Fl round53) 2 (1 / 10)%R = Ok regul) /\
  (exists p s, Construct_Dimension_Tree 5 (sempty, sempty) 0 (order rndV - 1) = Ok (p, s)) /\
  mode_roundings (lens rndV) 1 = 15 /\ gram_roundings (lens rndV) 1 = 18 /\ (gam (/ 2 ^ 53) 19 < / 10 ^ 10)%R.
Proof.
  destruct C83_case as (H1 & H2 & H3 & H4 & H5 & _). split; [exact H1|].
  split. { intros S k HS. cbn. split; [apply mdiag_mat|]. split; [reflexivity|]. split; [apply tabulate_wf|apply mdiag_mat]. }
  split; [exact H2|]. split; [exact H4|]. split; [exact H3|].
  split. { split; [reflexivity|]. intros m Hm; cbn in Hm; do 4 (destruct m as [|m]; [split; reflexivity|]); lia. }
  split; [eexists; apply mk_seqV_ok|]. split; [eexists; apply raw_regul|]. split; [exact H5|].
  split; [reflexivity|]. split; [reflexivity|].
  assert (0 < / 2 ^ 53)%R by (apply Rinv_0_lt_compat, pow_lt; lra).
  assert (/ 2 ^ 53 < / 1000000000000)%R by (apply Rinv_lt_contravar; lra).
  assert (Ei : INR 19 = 19%R) by (rewrite INR_IZR_INZ; reflexivity).
  set (v := (/ 2 ^ 53)%R) in *. clearbody v.
  eapply Rle_lt_trans; [apply C83_gam; [lra|rewrite Ei; lra]|].
  rewrite Ei. apply (Rmult_lt_reg_r (1 - 19 * v)); [lra|].
  unfold Rdiv. rewrite Rmult_assoc, Rinv_l by lra. lra.
Qed.

(** ** C87 *)
Theorem C87_normalize_rounded :
  forall (rnd : R -> R) (u : R), rel_err rnd u ->
  forall (W : list (tensor (Fl rnd))) (rk : nat),
  let o := length W in
  let true_norm (m : nat) : R := @norm2 Rnum (reals (fac W m)) in
  let slack (m : nat) : R := gam u (length (data (fac W m)) + 2) in
  1 <= o -> (forall m, m < o -> exists r, is_mat (fac W m) r rk) ->
  (forall m, m < o -> true_norm m <> 0%R) -> (forall m, m < o -> (slack m < 1)%R) ->
  exists W', Normalize W o = Ok W' /\ length W' = o /\
    (forall m, m < o -> is_mat (fac W' m) (nrow (fac W m)) rk) /\
    (* the tensor the factors represent moves by at most 5o roundings *)
    (forall x, (forall m, m < o -> nth m x 0 < nrow (fac W m)) ->
       (Rabs (@cp_at Rnum (map reals W') rk x - @cp_at Rnum (map reals W) rk x) <= gam u (5 * o) * @cp_at Rnum (map absols W) rk x)%R) /\
    (* and the new factors have almost the same norm *)
    exists g : R, (0 <= g)%R /\
      forall m, m < o -> (Rabs (@norm2 Rnum (reals (fac W' m)) - g) <= (gam u 3 + slack m) / (1 - slack m) * g)%R.
Proof.
  intros rnd u RE W rk o true_norm slack Ho HW Hn Hs.
  destruct (Normalize_r rnd u RE W rk Ho HW Hn Hs) as (W' & H1 & H2 & H3 & H4 & H5 & H6).
  exists W'. split; [exact H1|]. split; [exact H2|]. split; [exact H3|]. split; [exact H4|]. eexists. split; [exact H5|exact H6].
Qed.
Print Assumptions C87_normalize_rounded.
Theorem C87_case :
  rel_err round53 (/ 2 ^ 53)%R /\ length rndW = 4 /\
  (forall m, m < 4 -> is_mat (fac rndW m) 2 2) /\
  (forall m, m < 4 -> @norm2 Rnum (reals (fac rndW m)) <> 0%R) /\
  (forall m, m < 4 -> (gam (/ 2 ^ 53) (length (data (fac rndW m)) + 2) < 1)%R).
Proof.
  destruct C83_case as (H1 & H2 & H3 & _). split; [exact H1|]. split; [reflexivity|].
  assert (Ef : forall m, m < 4 -> fac rndW m = @mkT (Fl round53) [2; 2] (repeat (round53 (1 / 10)) 4)).
  { intros m Hm. do 4 (destruct m as [|m]; [reflexivity|]). lia. }
  assert (Hp : (0 < / 2 ^ 53 < / 1000)%R).
  { split; [apply Rinv_0_lt_compat, pow_lt; lra|apply Rinv_lt_contravar; lra]. }
  split; [intros m Hm; rewrite Ef by auto; split; reflexivity|]. split.
  - intros m Hm. rewrite Ef by auto. destruct H1 as [_ H1]. specialize (H1 (1 / 10)%R).
    set (x := round53 (1 / 10)) in *.
    assert (Hx : (x <> 0)%R). { intros E0. rewrite E0 in H1. set (v := (/ 2 ^ 53)%R) in *. clearbody v.
      replace (0 - 1 / 10)%R with (- (1 / 10))%R in H1 by lra. rewrite Rabs_Ropp in H1. rewrite (Rabs_pos_eq (1 / 10)) in H1 by lra. lra. }
    clearbody x. clear - Hx. unfold norm2. cbn.
    match goal with |- sqrt ?a <> 0%R => assert (Ha : (0 < a)%R) end.
    { assert (0 < x * x)%R by (destruct (Rtotal_order x 0) as [H|[H|H]]; [|contradiction|apply Rmult_lt_0_compat; auto];
        replace (x * x)%R with ((- x) * (- x))%R by ring; apply Rmult_lt_0_compat; lra). lra. }
    apply Rgt_not_eq, Rlt_gt, sqrt_lt_R0, Ha.
  - intros m Hm. rewrite Ef by auto. cbn [data repeat length Nat.add].
    assert (Ei : INR 6 = 6%R) by (rewrite INR_IZR_INZ; reflexivity).
    set (v := (/ 2 ^ 53)%R) in *. clearbody v.
    eapply Rle_lt_trans; [apply C83_gam; [lra|rewrite Ei; lra]|].
    rewrite Ei. apply (Rmult_lt_reg_r (1 - 6 * v)); [lra|].
    unfold Rdiv. rewrite Rmult_assoc, Rinv_l by lra. lra.
Qed.

(** ** C88 *)
Theorem C88_updated_factor_residual :
  forall (rnd : R -> R) (u : R) (kM : nat) (svd : tensor (Fl rnd) -> nat -> tensor (Fl rnd) * tensor (Fl rnd) * tensor (Fl rnd)) (lambda : R)
    (V : tensor (Fl rnd)) (F W : list (tensor (Fl rnd))) (n rk : nat) (W' : list (tensor (Fl rnd))),
  svd_shaped svd -> factors_ok V W rk -> n < order V ->
  als_solve_within u kM svd lambda V F rk W n W' -> normal_residual_within u kM svd lambda V F rk n W'.
Proof. exact normal_residual_r. Qed.
Print Assumptions C88_updated_factor_residual.
(** when the decomposition of every matrix near the exact system is exact and nonsingular, only rounding is left *)
Theorem C88_exact_decomposition :
  forall (rnd : R -> R) (u : R) (kM : nat) (svd : tensor (Fl rnd) -> nat -> tensor (Fl rnd) * tensor (Fl rnd) * tensor (Fl rnd)) (lambda : R)
    (V : tensor (Fl rnd)) (F W : list (tensor (Fl rnd))) (n rk : nat) (W' : list (tensor (Fl rnd))),
  svd_shaped svd -> factors_ok V W rk -> n < order V ->
  als_solve_within u kM svd lambda V F rk W n W' ->
  let lhs := @als_lhs Rnum lambda (map reals W') rk n in
  let rhs := @als_rhs Rnum (reals V) (map reals F) (map reals W') rk n in
  let lhs_abs := @als_lhs Rnum (Rabs lambda) (map absols W') rk n in
  let rhs_abs := @als_rhs Rnum (absols V) (map absols F) (map absols W') rk n in
  let g := gram_roundings (lens V) n in
  (forall S, mat_within u (g + 1) rk rk S lhs lhs_abs ->
     let '(U, sv, VT) := svd S rk in is_svd (reals S) (reals U) (reals sv) (reals VT) rk /\ forall i, i < rk -> @at_ Rnum (reals sv) [i] <> 0%R) ->
  exists M S : tensor (Fl rnd),
    mat_within u (kM + 1) (nth n (lens V) 0) rk M rhs rhs_abs /\ mat_within u (g + 1) rk rk S lhs lhs_abs /\
    let '(U, sv, VT) := svd S rk in
    let Pabs := pinv_matrix (absols U) (absols sv) (absols VT) rk in
    forall i j, i < nth n (lens V) 0 -> j < rk ->
      (Rabs (el (msub (mmul (reals (fac W' n)) lhs) rhs) i j)
       <= gam u (g + 1) * el (mmul (absols (fac W' n)) lhs_abs) i j + gam u (kM + 1) * el rhs_abs i j
          + gam u (2 * rk + 8) * el (mmul (mmul (absols M) Pabs) (absols S)) i j)%R.
Proof.
  intros rnd u kM svd lambda V F W n rk W' Hsh HW Hn H lhs rhs lhs_abs rhs_abs g Hex.
  destruct (normal_residual_r rnd u kM svd lambda V F W n rk W' Hsh HW Hn H) as (M & S & HM & HS & HB).
  exists M, S. split; [exact HM|]. split; [exact HS|].
  pose proof (Hex S HS) as Hd. specialize (Hsh S rk (proj1 HS)). destruct (svd S rk) as [[U sv] VT]. destruct Hd as [Hd Hz]. destruct Hsh as (HU & _ & _ & HV).
  cbv zeta. intros i j Hi Hj. specialize (HB i j Hi Hj). eapply Rle_trans; [exact HB|].
  rewrite (pinv_defect_0 (reals S) (reals U) (reals sv) (reals VT) rk Hd Hz).
  assert (Z : @el Rnum (mmul (absols M) (mabs (msub (@mid Rnum rk) (mid rk)))) i j = 0%R).
  { rewrite (el_mmul (N:=Rnum) _ _ (nth n (lens V) 0) rk rk); [|apply is_mat_absols, (proj1 HM)|apply mabs_mat, (msub_mat' (N:=Rnum)), mdiag_mat|auto|auto].
    apply (PErr.bs_zero (seq 0 rk)). intros x Hx. apply in_seq in Hx. rewrite el_mabs.
    rewrite (el_msub (N:=Rnum) _ _ rk rk); [|apply mdiag_mat|lia|auto].
    set (q := @el Rnum (mid rk) x j). change (car Rnum) with R in *. clearbody q. cbn [nsub Rnum]. rewrite (RIneq.Rminus_diag_eq q q eq_refl).
    rewrite Rabs_R0. apply Rmult_0_r. }
  rewrite Z, Rplus_0_r. apply Rle_refl.
Qed.
Print Assumptions C88_exact_decomposition.
(** every update of the three sweeps *)
Lemma steps_factors {rnd : R -> R} u (kM : nat -> nat) svd lambda (V : tensor (Fl rnd)) F rk (Ws : nat -> list (tensor (Fl rnd))) :
  svd_shaped svd -> factors_ok V (Ws 0) rk -> (forall n, n < order V -> als_solve_within u (kM n) svd lambda V F rk (Ws n) n (Ws (S n))) ->
  forall n, n <= order V -> factors_ok V (Ws n) rk.
Proof.
  intros Hsh H0 H. induction n as [|n IH]; intros Hn; [exact H0|].
  destruct (H n ltac:(lia)) as (M & S & A & HM & HS & HA & ->). apply setf_factors; [apply IH; lia|lia|].
  destruct (svd S rk) as [[U sv] VT]. apply HA.
Qed.
Theorem C88_dimension_tree_sweep :
  forall (rnd : R -> R) (u : R), rel_err rnd u ->
  forall (LA : lapack (Fl rnd)), svd_shaped (svd LA) ->
  forall (V : tensor (Fl rnd)) (rk : nat) (F W G : list (tensor (Fl rnd))) (Sm : tensor (Fl rnd)) (lambda : Fl rnd) (fuel : nat)
    (parent sibling : smap str) (seqV : buf Z) (regul : tensor (Fl rnd)),
  order V = 4 \/ 6 <= order V <= 31 -> order V < fuel ->
  factors_ok V W rk -> mats_ok V F rk -> mats_ok V G rk -> lens Sm = [rk; rk] ->
  mk_seqV (order V) = Ok seqV -> mk_regul rk lambda = Ok regul ->
  Construct_Dimension_Tree fuel (sempty, sempty) 0 (order V - 1) = Ok (parent, sibling) ->
  exists (W' G' : list (tensor (Fl rnd))) (Sm' : tensor (Fl rnd)) (Ws : nat -> list (tensor (Fl rnd))),
    alsCP_DT_sweep LA fuel parent sibling V F regul W G Sm seqV = Ok (W', G', Sm', seqV) /\
    Ws 0 = W /\ Normalize (Ws (order V)) (order V) = Ok W' /\
    forall n, n < order V ->
      (forall m, m <> n -> fac (Ws (S n)) m = fac (Ws n) m) /\
      normal_residual_within u (mode_roundings (lens V) n) (svd LA) lambda V F rk n (Ws (S n)).
Proof.
  intros rnd u RE LA Hsh V rk F W G Sm lambda fuel parent sibling seqV regul Ho Hf HW HF HG HS Es Er E.
  destruct (C86_dimension_tree_sweep_rounded rnd u RE LA Hsh V rk F W G Sm lambda fuel parent sibling seqV regul Ho Hf HW HF HG HS Es Er E)
    as (W' & G' & Sm' & Ws & E1 & _ & _ & _ & H0 & H & HN).
  exists W', G', Sm', Ws. split; [exact E1|]. split; [exact H0|]. split; [exact HN|].
  assert (Hok : forall n, n <= order V -> factors_ok V (Ws n) rk).
  { apply (steps_factors u (mode_roundings (lens V)) (svd LA) lambda V F rk Ws Hsh); [rewrite H0; exact HW|]. intros n Hn. apply H; auto. }
  intros n Hn. destruct (H n Hn) as [Hs _]. split.
  - intros m Hm. destruct Hs as (M & S & A & _ & _ & _ & Eq). rewrite Eq. rewrite fac_setf by (destruct (Hok n ltac:(lia)) as (_ & -> & _); auto).
    destruct (Nat.eqb_spec m n); [contradiction|reflexivity].
  - apply (normal_residual_r rnd u _ (svd LA) lambda V F (Ws n) n rk (Ws (S n))); auto. apply Hok. lia.
Qed.
Print Assumptions C88_dimension_tree_sweep.
Theorem C88_direct_sweep :
  forall (rnd : R -> R) (u : R), rel_err rnd u ->
  forall (LA : lapack (Fl rnd)), svd_shaped (svd LA) ->
  forall (V : tensor (Fl rnd)) (rk s : nat) (F W : list (tensor (Fl rnd))) (Sm : tensor (Fl rnd)) (seqV : buf Z),
  2 <= order V <= 10 -> lens V = repeat s (order V) ->
  factors_ok V W rk -> mats_ok V F rk -> lens Sm = [rk; rk] -> mk_seqV (order V) = Ok seqV ->
  exists (W' : list (tensor (Fl rnd))) (Sm' : tensor (Fl rnd)) (Ws : nat -> list (tensor (Fl rnd))),
    alsCP_sweep LA V F (W, Sm, seqV) = Ok (W', Sm', seqV) /\ Ws 0 = W /\ Ws (order V) = W' /\
    forall n, n < order V ->
      (forall m, m <> n -> fac (Ws (S n)) m = fac (Ws n) m) /\
      normal_residual_within u (mode_roundings (lens V) n + 2) (svd LA) 0%R V F rk n (Ws (S n)).
Proof.
  intros rnd u RE LA Hsh V rk s F W Sm seqV Ho Hc HW HF HS Es.
  destruct (C86_direct_sweep_rounded rnd u RE LA Hsh V rk s F W Sm seqV Ho Hc HW HF HS Es)
    as (W' & Sm' & Ws & E1 & _ & _ & H0 & H1 & H).
  exists W', Sm', Ws. split; [exact E1|]. split; [exact H0|]. split; [exact H1|].
  assert (Hok : forall n, n <= order V -> factors_ok V (Ws n) rk).
  { apply (steps_factors u (fun n => mode_roundings (lens V) n + 2) (svd LA) 0%R V F rk Ws Hsh); [rewrite H0; exact HW|]. exact H. }
  intros n Hn. split.
  - intros m Hm. destruct (H n Hn) as (M & S & A & _ & _ & _ & Eq). rewrite Eq. rewrite fac_setf by (destruct (Hok n ltac:(lia)) as (_ & -> & _); auto).
    destruct (Nat.eqb_spec m n); [contradiction|reflexivity].
  - apply (normal_residual_r rnd u _ (svd LA) 0%R V F (Ws n) n rk (Ws (S n))); auto. apply Hok. lia.
Qed.
Print Assumptions C88_direct_sweep.
(** rank one: the 1x1 system [s] is decomposed exactly as 1 s 1, and the hypothesis of C88_exact_decomposition holds *)
Definition rndW1 : list (tensor (Fl round53)) := repeat (@mkT (Fl round53) [2; 1] [1%R; 1%R]) 4.
Theorem C88_case :
  svd_shaped (svd LA53) /\ factors_ok rndV rndW1 1 /\ mats_ok rndV rndW1 1 /\ order rndV = 4 /\
  let lhs := @als_lhs Rnum 0%R (map reals rndW1) 1 1 in
  let lhs_abs := @als_lhs Rnum (Rabs 0) (map absols rndW1) 1 1 in
  @el Rnum lhs 0 0 = 8%R /\
  forall S, mat_within (/ 2 ^ 53)%R (gram_roundings (lens rndV) 1 + 1) 1 1 S lhs lhs_abs ->
     let '(U, sv, VT) := svd LA53 S 1 in is_svd (reals S) (reals U) (reals sv) (reals VT) 1 /\ forall i, i < 1 -> @at_ Rnum (reals sv) [i] <> 0%R.
Proof.
  destruct C86_case as (_ & H1 & H2 & _). split; [exact H1|].
  assert (Hf : forall m, m < 4 -> is_mat (fac rndW1 m) (nth m (lens rndV) 0) 1).
  { intros m Hm. do 4 (destruct m as [|m]; [split; reflexivity|]); lia. }
  split; [split; [reflexivity|split; [reflexivity|exact Hf]]|]. split; [split; [reflexivity|exact Hf]|]. split; [exact H2|]. cbv zeta.
  assert (E8 : @el Rnum (@als_lhs Rnum 0%R (map reals rndW1) 1 1) 0 0 = 8%R) by (cbv -[Rplus Rmult Rminus Ropp Rdiv IZR Rabs]; lra).
  assert (E8' : @el Rnum (@als_lhs Rnum (Rabs 0) (map absols rndW1) 1 1) 0 0 = 8%R) by (cbv -[Rplus Rmult Rminus Ropp Rdiv IZR Rabs]; rewrite ?Rabs_R0, ?Rabs_R1; lra).
  split; [exact E8|]. intros S [HSm HS]. specialize (HS 0 0 ltac:(lia) ltac:(lia)). rewrite E8, E8' in HS.
  assert (Hg : (gam (/ 2 ^ 53) (gram_roundings (lens rndV) 1 + 1) < 1)%R).
  { change (gram_roundings (lens rndV) 1 + 1) with 19. destruct C86_case as (_ & _ & _ & _ & _ & _ & _ & _ & _ & _ & _ & Hg). lra. }
  set (ga := gam (/ 2 ^ 53) (gram_roundings (lens rndV) 1 + 1)) in *. clearbody ga.
  destruct S as [ls ds]. destruct HSm as [El Hw]. cbn [lens] in El. subst ls. unfold wf in Hw. cbn [lens data] in Hw.
  destruct ds as [|x [|? ?]]; [discriminate| |discriminate].
  change (@el (Fl round53) (mkT [1; 1] [x]) 0 0) with (x : R) in HS.
  assert (Hx : (x <> 0)%R). { intros ->. rewrite RIneq.Rminus_0_l, Rabs_Ropp, Rabs_pos_eq in HS by lra. change (car (Fl round53)) with R in *. lra. }
  change (car (Fl round53)) with R in x, Hx.
  cbn [svd LA53]. split.
  - split; [split; reflexivity|]. split; [reflexivity|]. split; [reflexivity|]. split; [split; reflexivity|].
    repeat split; cbv -[Rplus Rmult Rminus Ropp Rdiv IZR Rabs]; repeat f_equal; try ring.
  - intros i Hi. assert (i = 0) by lia. subst i. exact Hx.
Qed.
