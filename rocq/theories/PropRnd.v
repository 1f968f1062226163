(** Property theorems: the error of the MTTKRP kernels and of the tensor reconstruction in rounded arithmetic (C83) *)
From Coq Require Import List ZArith Lia Bool Arith Permutation Reals Lra.
From Flocq Require Import Core Relative.
From Verif Require Import Base Num NumR Tensor Spec Spec27 MCommon MCP PBase PTensor PTree PDT PRnd PRndDT PRndDT2 PRndKR PRndBV.
Import ListNotations.
Local Close Scope R_scope.
Local Open Scope nat_scope.

(** ** the hypothesis: 53-bit rounding to nearest has relative error at most 2^-53, and it does round *)
Theorem C83_round53 : rel_err round53 (/ 2 ^ 53)%R.
Proof.
  split.
  - left. apply Rinv_0_lt_compat. apply pow_lt. lra.
  - intros x. unfold round53.
    pose proof (relative_error_N_FLX radix2 53 ltac:(lia) (fun n => negb (Z.even n)) x) as H.
    replace (/ 2 ^ 53)%R with (/ 2 * bpow radix2 (- (53) + 1))%R; [exact H|].
    cbn [Z.add Z.opp Z.pos_sub Pos.pred_double Pos.pred].
    change (bpow radix2 (-52)) with (/ IZR (Z.pow_pos 2 52))%R. 
    replace (2 ^ 53)%R with (2 * IZR (Z.pow_pos 2 52))%R; [rewrite Rinv_mult; reflexivity|].
    rewrite pow_IZR. rewrite <- mult_IZR. f_equal.
Qed.
Print Assumptions C83_round53.
Theorem C83_round53_rounds : round53 (1 + / 2 ^ 54)%R <> (1 + / 2 ^ 54)%R.
Proof.
  intros E.
  assert (G : generic_format radix2 (FLX_exp 53) (1 + / 2 ^ 54)%R).
  { rewrite <- E. apply generic_format_round; [apply FLX_exp_valid; reflexivity|apply valid_rnd_N]. }
  assert (H54 : (/ 2 ^ 54 = bpow radix2 (-54))%R).
  { change (bpow radix2 (-54)) with (/ IZR (Z.pow_pos 2 54))%R. rewrite pow_IZR. reflexivity. }
  assert (H54' : (bpow radix2 (-54) * bpow radix2 54 = 1)%R) by (rewrite <- bpow_plus; reflexivity).
  assert (Hm : mag radix2 (1 + / 2 ^ 54)%R = 1%Z :> Z).
  { apply mag_unique. rewrite H54. pose proof (bpow_gt_0 radix2 (-54)). 
    assert (bpow radix2 (-54) < 1)%R by (apply (bpow_lt radix2 (-54) 0); lia).
    rewrite Rabs_pos_eq by lra. cbn [Z.sub Z.add Z.opp Z.pos_sub]. change (bpow radix2 0) with 1%R. change (bpow radix2 1) with 2%R. lra. }
  unfold generic_format, F2R, scaled_mantissa, cexp in G. rewrite Hm in G. cbn [Fnum Fexp] in G.
  change (FLX_exp 53 1) with (-52)%Z in G. cbn [Z.opp] in G.
  set (m := Ztrunc _) in G. clearbody m.
  assert (G2 : ((1 + / 2 ^ 54) * bpow radix2 54 = IZR m * 4)%R).
  { rewrite G. rewrite Rmult_assoc, <- bpow_plus. reflexivity. }
  rewrite H54, Rmult_plus_distr_r, H54', Rmult_1_l in G2.
  change (bpow radix2 54) with (IZR (Z.pow_pos 2 54)) in G2.
  rewrite <- mult_IZR, <- plus_IZR in G2. apply eq_IZR in G2.
  change (Z.pow_pos 2 54) with (4 * 4503599627370496)%Z in G2. lia.
Qed.

(** ** the size of the bound: k roundings cost at most k u / (1 - k u) *)
Theorem C83_gam : forall u k, (0 <= u)%R -> (INR k * u < 1)%R -> (gam u k <= INR k * u / (1 - INR k * u))%R.
Proof.
  intros u k Hu Hk.
  assert (H : ((1 + u) ^ k * (1 - INR k * u) <= 1)%R).
  { clear Hk. induction k as [|k IH]; [cbn; lra|].
    rewrite S_INR. change ((1 + u) ^ S k)%R with ((1 + u) * (1 + u) ^ k)%R.
    assert (0 <= (1 + u) ^ k)%R by (apply pow_le; lra). assert (0 <= INR k)%R by apply pos_INR.
    set (p := ((1 + u) ^ k)%R) in *. set (q := INR k) in *. clearbody p q.
    assert (0 <= p * (q * (u * u)))%R by (repeat apply Rmult_le_pos; lra).
    assert (0 <= p * (u * u))%R by (repeat apply Rmult_le_pos; lra). nra. }
  unfold gam. set (p := ((1 + u) ^ k)%R) in *. set (q := (INR k * u)%R) in *. clearbody p q.
  apply (Rmult_le_reg_r (1 - q)); [lra|]. unfold Rdiv. rewrite Rmult_assoc, Rinv_l by lra. lra.
Qed.
Print Assumptions C83_gam.

(** ** the dimension tree *)
Theorem C83_dimension_tree_rounded :
  forall (rnd : R -> R) (u : R), rel_err rnd u ->
  forall (V : tensor (Fl rnd)) (W : list (tensor (Fl rnd))) (rk i fuel : nat) (parent sibling : smap str),
  order V = 4 \/ 6 <= order V <= 31 -> order V < fuel -> factors_ok V W rk -> i < order V ->
  Construct_Dimension_Tree fuel (sempty, sempty) 0 (order V - 1) = Ok (parent, sibling) ->
  exists table M, dt_M fuel parent sibling V W sempty i = Ok (table, M) /\
    mttkrp_within u (mode_roundings (lens V) i) V W i rk M.
Proof.
  intros rnd u RE V W rk i fuel parent sibling Ho Hf HW Hi E.
  destruct (tree_build (order V) fuel) as (p & s & E' & Ht); [lia|lia|]. rewrite E in E'. injection E' as <- <-.
  destruct (dt_M_ok rnd u RE V rk ltac:(lia) parent sibling Ht ltac:(lia) W i fuel sempty HW Hi Hf) as (mp & M & Em & HM & _).
  - intros x y T _ _ H. discriminate.
  - eauto.
Qed.
Print Assumptions C83_dimension_tree_rounded.

(** the table is shared by all the requests: answers from cached tensors obey the same bound *)
Theorem C83_cached_requests_rounded :
  forall (rnd : R -> R) (u : R), rel_err rnd u ->
  forall (V : tensor (Fl rnd)) (W : list (tensor (Fl rnd))) (rk : nat) (fuel : nat) (parent sibling : smap str) (modes : list nat),
  order V = 4 \/ 6 <= order V <= 31 -> order V < fuel -> factors_ok V W rk ->
  (forall m, In m modes -> m < order V) ->
  Construct_Dimension_Tree fuel (sempty, sempty) 0 (order V - 1) = Ok (parent, sibling) ->
  exists table Ms,
    fold_left (fun acc m => '(mp, out) <- acc ;; '(mp, M) <- dt_M fuel parent sibling V W mp m ;; Ok (mp, out ++ [M]))
              modes (Ok (sempty, []))
    = Ok (table, Ms) /\
    Forall2 (fun m M => mttkrp_within u (mode_roundings (lens V) m) V W m rk M) modes Ms.
Proof.
  intros rnd u RE V W R fuel parent sibling modes Ho Hf HW Hm E.
  destruct (tree_build (order V) fuel) as (p & s & E' & Ht); [lia|lia|]. rewrite E in E'. injection E' as <- <-.
  assert (G : forall modes mp out, (forall m, In m modes -> m < order V) -> 
     (forall m, m < order V -> valid_at rnd u V R W m mp) ->
     exists table Ms,
    fold_left (fun acc m => '(mp, out) <- acc ;; '(mp, M) <- dt_M fuel parent sibling V W mp m ;; Ok (mp, out ++ [M]))
              modes (Ok (mp, out))
    = Ok (table, out ++ Ms) /\
    Forall2 (fun m M => mttkrp_within u (mode_roundings (lens V) m) V W m R M) modes Ms).
  { clear modes Hm. induction modes as [|m modes IH]; intros mp out Hm Hv.
    - exists mp, []. cbn. rewrite app_nil_r. auto.
    - destruct (dt_M_ok rnd u RE V R ltac:(lia) parent sibling Ht ltac:(lia) W m fuel mp HW) as (mp' & M & Em & HM & Hv' & Hnew); auto.
      { apply Hm; left; auto. } { apply Hv, Hm; left; auto. }
      cbn [fold_left bind]. rewrite Em. cbn [bind].
      destruct (IH mp' (out ++ [M])) as (t & Ms & Et & F).
      + intros; apply Hm; right; auto.
      + intros k Hk x y T Hx Hy ET. destruct (Hnew _ _ ET) as [ET'|(x' & y' & Hx' & Hy' & Es)].
        * exact (Hv k Hk x y T Hx Hy ET').
        * assert (x = x' /\ y = y') as [-> ->] by (apply range_str_inj; auto; lia).
          exact (Hv' x' y' T Hx' Hy' ET).
      + exists t, (M :: Ms). split; [rewrite Et, <- app_assoc; reflexivity|]. constructor; auto. }
  destruct (G modes sempty []) as (t & Ms & Et & F); auto.
  - intros m Hm' x y T _ _ H. discriminate.
  - exists t, Ms. auto.
Qed.
Print Assumptions C83_cached_requests_rounded.

(** ** the direct MTTKRP *)
Theorem C83_direct_mttkrp_rounded :
  forall (rnd : R -> R) (u : R), rel_err rnd u ->
  forall (V M : tensor (Fl rnd)) (W : list (tensor (Fl rnd))) (rk s n : nat) (idx : list nat),
  2 <= order V <= 10 -> lens V = repeat s (order V) -> factors_ok V W rk ->
  Permutation idx (seq 0 (order V)) -> nth (order V - 1) idx 0 = n -> lens M = [s; rk] ->
  exists M', KhatriRao_contract M V W (map Some idx) (map Some (repeat s (order V - 1) ++ [rk])) = Ok M' /\
    mttkrp_within u (mode_roundings (lens V) n + 2) V W n rk M'.
Proof.
  intros rnd u RE V M W rk s n idx H1 H2 H3 H4 H5 H6.
  exact (KhatriRao_contract_ok rnd u RE V W rk s idx H1 H2 H3 H4 M n H5 H6).
Qed.
Print Assumptions C83_direct_mttkrp_rounded.

(** ** the reconstruction of the full tensor *)
Theorem C83_build_V_rounded :
  forall (rnd : R -> R) (u : R), rel_err rnd u ->
  forall (W : list (tensor (Fl rnd))) (rk o : nat),
  2 <= o <= 19 -> length W = o -> (forall m, m < o -> exists r, is_mat (fac W m) r rk) ->
  exists B, build_V W o = Ok B /\ wf B /\ lens B = map nrow W /\
    forall x, In x (all_idx (map nrow W)) ->
      (Rabs (at_ B x - @cp_at Rnum (map reals W) rk x) <= gam u (3 * (o - 1) + rk) * @cp_at Rnum (map absols W) rk x)%R.
Proof.
  intros rnd u RE W rk o [H1 H2] H3 H4.
  destruct (build_V_rounded rnd u RE W rk o H1 H3 H4 H2) as (B & E & Hw & Hl & Hx).
  exists B. repeat split; auto. intros x Hin. apply all_idx_in in Hin. apply (Hx x Hin).
Qed.
Print Assumptions C83_build_V_rounded.

(** ** a case: the 2x2x2x2 tensor and 2x2 factors with entries 1/10 (rounded), 53-bit rounding *)
Definition rndV : tensor (Fl round53) := @mkT (Fl round53) [2; 2; 2; 2] (repeat (round53 (1 / 10)) 16).
Definition rndW : list (tensor (Fl round53)) := repeat (@mkT (Fl round53) [2; 2] (repeat (round53 (1 / 10)) 4)) 4.
Theorem C83_case :
  rel_err round53 (/ 2 ^ 53)%R /\ order rndV = 4 /\ factors_ok rndV rndW 2 /\ lens rndV = repeat 2 (order rndV) /\
  (exists p s, Construct_Dimension_Tree 5 (sempty, sempty) 0 (order rndV - 1) = Ok (p, s)) /\
  mode_roundings (lens rndV) 1 = 15 /\ (gam (/ 2 ^ 53) 15 <= 16 / 2 ^ 53)%R.
Proof.
  split; [apply C83_round53|]. split; [reflexivity|]. split.
  { split; [reflexivity|]. split; [reflexivity|]. intros m Hm; cbn in Hm; do 4 (destruct m as [|m]; [split; reflexivity|]); lia. }
  split; [reflexivity|]. split.
  { destruct (tree_build (order rndV) 5) as (p & s & E & _); [cbn; lia|cbn; lia|]. exists p, s. exact E. }
  split; [reflexivity|].
  assert (0 < / 2 ^ 53)%R by (apply Rinv_0_lt_compat, pow_lt; lra).
  assert (/ 2 ^ 53 < / 1000)%R by (apply Rinv_lt_contravar; lra).
  set (v := (/ 2 ^ 53)%R) in *. change (16 / 2 ^ 53)%R with (16 * v)%R. clearbody v.
  eapply Rle_trans; [apply C83_gam; [lra|cbn [INR]; lra]|].
  cbn [INR]. apply (Rmult_le_reg_r (1 - (1 + 1 + 1 + 1 + 1 + 1 + 1 + 1 + 1 + 1 + 1 + 1 + 1 + 1 + 1) * v)); [lra|].
  unfold Rdiv. rewrite Rmult_assoc, Rinv_l by lra. nra.
Qed.
