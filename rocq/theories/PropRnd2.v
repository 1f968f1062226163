(** Property theorems: the logged residual norm (C84) and the gradient (C85) in rounded arithmetic *)
From Coq Require Import List ZArith Lia Bool Arith Permutation Reals Lra.
From Verif Require Import Base Num NumR Tensor Spec Spec27 Spec28 MCommon MCP PBase PTensor PTree PDT PGrad PDrivers PRnd PRndDT PRndDT2 PRndKR PRndBV PRndNorm
  PRndGrad PRndGrad2 PropRnd.
Import ListNotations.
Local Close Scope R_scope.
Local Open Scope nat_scope.

(** ** C84 *)
Theorem C84_norm_rounded :
  forall (rnd : R -> R) (u : R), rel_err rnd u ->
  forall T : tensor (Fl rnd),
  (Rabs (norm2 T - @norm2 Rnum (reals T)) <= gam u (length (data T) + 2) * @norm2 Rnum (reals T))%R.
Proof. intros rnd u RE T. exact (norm2_rounded rnd u RE T). Qed.
Print Assumptions C84_norm_rounded.
Theorem C84_residual_norm_rounded :
  forall (rnd : R -> R) (u : R), rel_err rnd u ->
  forall (V : tensor (Fl rnd)) (W : list (tensor (Fl rnd))) (rk : nat) (seq_V : buf Z),
  2 <= order V <= 19 -> factors_ok V W rk -> mk_seqV (order V) = Ok seq_V ->
  exists r, diffnorm V W seq_V = Ok r /\
    let exact := @resid_norm Rnum (reals V) (map reals W) rk in
    let n := length (data V) in
    (Rabs (r - exact) <= gam u (n + 2) * exact + gam u (n + 3 * (order V - 1) + rk + 5) * mass_norm V W rk)%R.
Proof.
  intros rnd u RE V W rk sq Ho HW E. rewrite mk_seqV_ok in E. injection E as <-.
  exact (diffnorm_rounded rnd u RE V W rk Ho HW).
Qed.
Print Assumptions C84_residual_norm_rounded.
(** hence a logged residual bounds the true one *)
Theorem C84_true_residual :
  forall (rnd : R -> R) (u : R), rel_err rnd u ->
  forall (V : tensor (Fl rnd)) (W : list (tensor (Fl rnd))) (rk : nat) (seq_V : buf Z) (r : R),
  2 <= order V <= 19 -> factors_ok V W rk -> mk_seqV (order V) = Ok seq_V ->
  diffnorm V W seq_V = Ok r ->
  let n := length (data V) in (gam u (n + 2) < 1)%R ->
  (@resid_norm Rnum (reals V) (map reals W) rk <= (r + gam u (n + 3 * (order V - 1) + rk + 5) * mass_norm V W rk) / (1 - gam u (n + 2)))%R.
Proof.
  intros rnd u RE V W rk sq r Ho HW E Er n Hg.
  destruct (C84_residual_norm_rounded rnd u RE V W rk sq Ho HW E) as (r' & Er' & H). rewrite Er in Er'. injection Er' as <-.
  cbn zeta in H. fold n in H. set (x := @resid_norm Rnum (reals V) (map reals W) rk) in *. set (a := gam u (n + 2)) in *.
  set (b := (gam u (n + 3 * (order V - 1) + rk + 5) * mass_norm V W rk)%R) in *. change (car Rnum) with R in *. change (car (Fl rnd)) with R in *. clearbody x a b.
  apply (Rmult_le_reg_r (1 - a)); [lra|]. unfold Rdiv. rewrite Rmult_assoc, Rinv_l by lra.
  pose proof (Rle_abs (- (r - x))) as K. rewrite Rabs_Ropp in K. lra.
Qed.
Print Assumptions C84_true_residual.
Theorem C84_case :
  rel_err round53 (/ 2 ^ 53)%R /\ factors_ok rndV rndW 2 /\ 2 <= order rndV <= 19 /\ length (data rndV) = 16 /\
  (exists sq, mk_seqV (order rndV) = Ok sq) /\ (gam (/ 2 ^ 53) (16 + 2) < 1)%R.
Proof.
  destruct C83_case as (H1 & H2 & H3 & _). split; [auto|]. split; [auto|]. split; [rewrite H2; lia|]. split; [reflexivity|].
  split; [eexists; apply mk_seqV_ok|].
  assert (0 < / 2 ^ 53)%R by (apply Rinv_0_lt_compat, pow_lt; lra).
  assert (/ 2 ^ 53 < / 1000)%R by (apply Rinv_lt_contravar; lra).
  assert (Ei : INR (16 + 2) = 18%R) by (rewrite INR_IZR_INZ; reflexivity).
  set (v := (/ 2 ^ 53)%R) in *. clearbody v.
  eapply Rle_lt_trans; [apply C83_gam; [lra|rewrite Ei; lra]|].
  rewrite Ei. apply (Rmult_lt_reg_r (1 - 18 * v)); [lra|].
  unfold Rdiv. rewrite Rmult_assoc, Rinv_l by lra. lra.
Qed.

(** ** C85 *)
Theorem C85_gradient_rounded :
  forall (rnd : R -> R) (u : R), rel_err rnd u ->
  forall (V : tensor (Fl rnd)) (W G : list (tensor (Fl rnd))) (rk s : nat),
  2 <= order V <= 10 -> lens V = repeat s (order V) -> factors_ok V W rk ->
  length G = order V -> (forall m, m < order V -> lens (fac G m) = [s; rk]) ->
  exists G', gradient_CP V W G = Ok G' /\ length G' = order V /\
    forall m, m < order V -> grad_within u (grad_roundings (lens V) m rk) V W m rk (fac G' m).
Proof. intros rnd u RE V W G rk s. exact (gradient_CP_r rnd u RE V W G rk s). Qed.
Print Assumptions C85_gradient_rounded.
Theorem C85_dimension_tree_gradient_rounded :
  forall (rnd : R -> R) (u : R), rel_err rnd u ->
  forall (V : tensor (Fl rnd)) (W : list (tensor (Fl rnd))) (rk i fuel : nat) (parent sibling : smap str) (Sm G : tensor (Fl rnd)) (idx : list nat),
  order V = 4 \/ 6 <= order V <= 31 -> order V < fuel -> factors_ok V W rk -> i < order V ->
  Construct_Dimension_Tree fuel (sempty, sempty) 0 (order V - 1) = Ok (parent, sibling) ->
  lens Sm = [rk; rk] -> lens G = [nth i (lens V) 0; rk] -> Permutation idx (seq 0 (order V)) -> nth (order V - 1) idx 0 = i ->
  exists table M S' G', dt_M fuel parent sibling V W sempty i = Ok (table, M) /\ gram_index Sm W (order V) (map Some idx) = Ok S' /\
    gradsubprob M S' (fac W i) G = Ok G' /\ grad_within u (grad_roundings (lens V) i rk) V W i rk G'.
Proof.
  intros rnd u RE V W rk i fuel parent sibling Sm G idx Ho Hf HW Hi E HS HG Hp Hn.
  destruct (tree_build (order V) fuel) as (p & s & E' & Ht); [lia|lia|]. rewrite E in E'. injection E' as <- <-.
  apply (dt_grad_r rnd u RE V W rk i fuel parent sibling sempty Sm G idx Ho Hf HW Hi Ht); auto.
  intros x y T _ _ H. discriminate.
Qed.
Print Assumptions C85_dimension_tree_gradient_rounded.
(** the convergence check of alsCP: the number compared with the tolerance *)
Theorem C85_alsCP_check_rounded :
  forall (rnd : R -> R) (u : R), rel_err rnd u ->
  forall (clk : nat -> Fl rnd) (V : tensor (Fl rnd)) (F : list (tensor (Fl rnd))) (tol limit : Fl rnd) (st : @als_state (Fl rnd)) (rk s : nat),
  2 <= order V <= 10 -> lens V = repeat s (order V) ->
  factors_ok V (aW st) rk -> mats_ok V (aG st) rk -> mats_ok V F rk -> zero_mats V F rk ->
  exists stop st', alsCP_check clk V F tol limit st = Ok (stop, st') /\ aW st' = aW st /\
    (forall m, m < order V -> grad_within u (grad_roundings (lens V) m rk) V (aW st) m rk (fac (aG st') m)) /\
    let o := order V in
    let exact := @grad_norm Rnum (map (grad_spec (reals V) (map reals (aW st)) rk) (seq 0 o)) in
    let mass := @grad_norm Rnum (map (grad_mass V (aW st) rk) (seq 0 o)) in
    (Rabs (apn st' - exact) <= gam u (2 * (s * rk) + o + 6) * exact + gam u (2 * (s * rk) + o + 6 + ((o - 1) * (s + 4) + rk + 8)) * mass)%R.
Proof. exact alsCP_check_r. Qed.
Print Assumptions C85_alsCP_check_rounded.
(** the two numbers of a log row: the norm of the stored gradients and the residual norm *)
Theorem C85_logged_norms :
  forall (rnd : R -> R) (u : R), rel_err rnd u ->
  forall (clk : nat -> Fl rnd) (V : tensor (Fl rnd)) (W G : list (tensor (Fl rnd))) (rk n : nat) (seq_V : buf Z) (x : @io (Fl rnd)),
  2 <= order V <= 19 -> factors_ok V W rk -> length G = order V -> (forall m, m < order V -> length (data (fac G m)) <= n) ->
  mk_seqV (order V) = Ok seq_V ->
  exists p r dt x', measure clk V W G seq_V x = Ok (p, r, dt, x') /\
    let o := order V in
    let g := @grad_norm Rnum (map reals G) in
    let rexact := @resid_norm Rnum (reals V) (map reals W) rk in
    let nV := length (data V) in
    (Rabs (p - g) <= gam u (2 * n + o + 6) * g)%R /\
    (Rabs (r - rexact) <= gam u (nV + 2) * rexact + gam u (nV + 3 * (o - 1) + rk + 5) * mass_norm V W rk)%R.
Proof.
  intros rnd u RE clk V W G rk n sq x Ho HW HG HGm E.
  destruct (sumnorm_r rnd u RE G (order V) n HG HGm) as (p & Ep & Hp).
  destruct (C84_residual_norm_rounded rnd u RE V W rk sq Ho HW E) as (r & Er & Hr).
  assert (EM : exists dt x', measure clk V W G sq x = Ok (p, r, dt, x')).
  { unfold measure, check_begin, wtime. rewrite Ep. cbn [bind]. rewrite Er. cbn [bind]. unfold check_end, wtime. cbn. eauto. }
  destruct EM as (dt & x' & EM). exists p, r, dt, x'. split; [exact EM|]. cbv zeta. split; [|exact Hr].
  assert (EN : @grad_norm Rnum (map reals G) = PErr.nrm (seq 0 (order V)) (fun m => @norm2 Rnum (reals (fac G m)))); [|rewrite EN; exact Hp].
  unfold grad_norm, PErr.nrm. cbn [nsqrt Rnum]. f_equal. rewrite bigsum_map.
  rewrite <- HG. unfold fac. generalize (@tnil (Fl rnd)). intros d0.
  replace G with (map (fun m => nth m G d0) (seq 0 (length G))) at 1.
  - rewrite bigsum_map. reflexivity.
  - clear. induction G as [|a G IH]; cbn; auto. f_equal. rewrite <- seq_shift, map_map. exact IH.
Qed.
Print Assumptions C85_logged_norms.
Theorem C85_case :
  rel_err round53 (/ 2 ^ 53)%R /\ 2 <= order rndV <= 10 /\ lens rndV = repeat 2 (order rndV) /\ factors_ok rndV rndW 2 /\
  length rndW = order rndV /\ (forall m, m < order rndV -> lens (fac rndW m) = [2; 2]) /\ grad_roundings (lens rndV) 0 2 = 25 /\
  mats_ok rndV rndW 2 /\ mats_ok rndV (repeat (zeros [2; 2]) 4) 2 /\ zero_mats rndV (repeat (zeros [2; 2]) 4) 2.
Proof.
  destruct C83_case as (H1 & H2 & H3 & H4 & _). split; [auto|]. split; [rewrite H2; lia|]. split; [auto|]. split; [auto|].
  split; [reflexivity|].
  split. { intros m Hm; cbn in Hm; do 4 (destruct m as [|m]; [reflexivity|]); lia. }
  split; [reflexivity|].
  split. { split; [reflexivity|]. intros m Hm; cbn in Hm; do 4 (destruct m as [|m]; [split; reflexivity|]); lia. }
  split. { split; [reflexivity|]. intros m Hm; cbn in Hm; do 4 (destruct m as [|m]; [split; reflexivity|]); lia. }
  intros m i j Hm Hi Hj. cbn in Hm.
  do 4 (destruct m as [|m]; [cbn in Hi; destruct i as [|[|i]]; destruct j as [|[|j]]; try reflexivity; lia|]); lia.
Qed.
