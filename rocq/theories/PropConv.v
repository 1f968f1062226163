(** C69, C70: the objective along the sweeps of alsCP_DT, and its convergence, over the reals. *)
From Coq Require Import List ZArith QArith Qround Reals Lra Lia Bool Arith.
From Verif Require Import Base Num NumR Tensor Spec Spec4 Spec10 Spec11 Spec18 Spec19 MCommon MCP PBase PTensor PSum PMttkrp PMat PMatAlg PResid PGrad PNormalize PALS PCPD PDrivers2
  PTuckMono PropCPD PropTucker3 PConv PConv2 PConv3 PConv4.
Import ListNotations.
Local Close Scope Q_scope.
Local Open Scope R_scope.

(** ** C69.  The regularised objective  |V - [[W]]|^2 + lambda (|W_1|^2 + ... + |W_o|^2)  never increases from sweep to sweep
    (the sweep includes the final rescaling by Normalize) *)
Theorem C69_sweeps :
  forall (LA : lapack Rnum), svd_shaped (svd LA) ->
  forall (V : tensor Rnum) (F W : list (tensor Rnum)) (rk : nat) (lambda : R),
  (2 <= order V)%nat -> factors_ok V W rk -> zero_mats V F rk -> 0 <= lambda ->
  svd_solvable_along (svd LA) lambda V F rk W -> factors_stay_nonzero (svd LA) lambda V F rk W ->
  forall i j, (i <= j)%nat ->
  objective (lambda : Rnum) V (als_factors (svd LA) lambda V F rk W j) rk <= objective (lambda : Rnum) V (als_factors (svd LA) lambda V F rk W i) rk.
Proof. intros LA Hsh V F W rk lambda H2 HW HF Hl Hs Hz. apply (f_mono LA V F W rk lambda Hsh H2 HW HF Hl Hs Hz). Qed.
Print Assumptions C69_sweeps.
(** for lambda > 0 the system matrices are invertible whatever the factors are: a valid decomposition is all that is needed *)
Lemma lens_pos (LA : lapack Rnum) (V : tensor Rnum) F W rk lambda n : svd_shaped (svd LA) -> factors_ok V W rk ->
  factors_stay_nonzero (svd LA) lambda V F rk W -> (n < order V)%nat -> (0 < nth n (lens V) 0)%nat.
Proof.
  intros Hsh HW Hz Hn. destruct (nth n (lens V) 0%nat) eqn:E; [|lia]. exfalso. apply (Hz 0%nat n Hn).
  assert (HM : is_mat (fac (als_sweep (pinv_solve (svd LA) rk) (lambda : Rnum) V F rk W) n) 0 rk).
  { pose proof (sweep_factors Rnum_ring LA V rk Hsh (lambda : Rnum) F W HW) as (_ & _ & H). rewrite <- E. apply H. exact Hn. }
  change (als_factors (svd LA) lambda V F rk W 0) with W. rewrite norm2_sumsq by apply HM. unfold sumsq. destruct HM as [HL _]. rewrite HL.
  assert (E0 : all_idx [0%nat; rk] = []). { destruct (all_idx [0%nat; rk]) as [|x l] eqn:Ex; [reflexivity|]. exfalso.
    assert (Hx : In x (all_idx [0%nat; rk])) by (rewrite Ex; left; reflexivity). apply all_idx_in in Hx. inversion Hx; lia. }
  rewrite E0. change (bigsum (N:=Rnum) [] ?g) with 0. apply sqrt_0.
Qed.
Lemma valid_along_solvable (LA : lapack Rnum) (V : tensor Rnum) F W rk (lambda : R) : svd_shaped (svd LA) -> factors_ok V W rk -> 0 < lambda ->
  factors_stay_nonzero (svd LA) lambda V F rk W -> svd_valid_along (svd LA) lambda V F rk W -> svd_solvable_along (svd LA) lambda V F rk W.
Proof.
  intros Hsh HW Hl Hz Hv k n Hn. apply (valid_solvable _ V); auto.
  - apply (upto_factors Rnum_ring LA V rk Hsh); [|lia]. apply (Wf_fac LA V F W rk lambda Hsh HW).
  - eapply lens_pos; eauto.
Qed.
Theorem C69_regularised_systems_invertible :
  forall (LA : lapack Rnum), svd_shaped (svd LA) ->
  forall (V : tensor Rnum) (F W : list (tensor Rnum)) (rk : nat) (lambda : R),
  factors_ok V W rk -> 0 < lambda -> factors_stay_nonzero (svd LA) lambda V F rk W ->
  svd_valid_along (svd LA) lambda V F rk W -> svd_solvable_along (svd LA) lambda V F rk W.
Proof. intros. apply valid_along_solvable; auto. Qed.
Print Assumptions C69_regularised_systems_invertible.

Lemma objective_zero (V : tensor Rnum) W rk : objective (0 : Rnum) V W rk = residual2 V W rk.
Proof. rewrite objective_split. rewrite Rmult_0_l. apply Rplus_0_r. Qed.
(** a run: the factors it returns have an objective no larger than that of the factors it was given; without regularisation the
    residuals of the rows it appends to the log never increase *)
Theorem C69_run :
  forall (LA : lapack Rnum), svd_shaped (svd LA) ->
  forall (clock : nat -> R) (rank0 bench : bool) (V : tensor Rnum) (rk : nat) (W G F : list (tensor Rnum)) (tol limit lambda : R) (maxiter resprint : Z)
    (fuel : nat) (x : io (N:=Rnum)),
  (order V = 4 \/ 6 <= order V <= 19)%nat -> (order V < fuel)%nat ->
  factors_ok V W rk -> mats_ok V F rk -> mats_ok V G rk -> zero_mats V F rk -> (0 <= maxiter)%Z -> resprint <> 0%Z ->
  0 <= lambda -> svd_solvable_along (svd LA) lambda V F rk W -> factors_stay_nonzero (svd LA) lambda V F rk W ->
  exists ret st new,
    alsCP_DT LA clock rank0 fuel V W G F (tol : Rnum) limit maxiter (lambda : Rnum) resprint bench x = Ok (ret, st) /\
    rows (dtio st) = rows x ++ new /\
    objective (lambda : Rnum) V (dtW st) rk <= objective (lambda : Rnum) V W rk /\
    (lambda = 0 -> bench = false -> exists es, map row_residual new = map Some es /\ nonincreasing es).
Proof.
  intros LA Hsh clock rank0 bench V rk W G F tol limit lambda maxiter resprint fuel x Ho Hf HW HF HG HZ Hm Hr Hl Hs Hz.
  assert (H2 : (2 <= order V)%nat) by lia.
  destruct (C26_alsCP_DT_run Rnum Rnum_ring LA Hsh clock rank0 V rk W G F tol limit maxiter lambda resprint bench fuel x Ho Hf HW HF HG Hm Hr)
    as (k & stopped & st & E & _ & _ & EW & _ & _ & ER).
  set (Wf k := Nat.iter k (fun W => rescaled (als_sweep (pinv_solve (svd LA) rk) lambda V F rk W)) W) in *.
  eexists stopped, st, _. split; [exact E|]. split; [exact ER|]. split.
  - rewrite EW. apply (f_mono LA V F W rk lambda Hsh H2 HW HZ Hl Hs Hz 0 k). lia.
  - intros -> ->. destruct rank0; [|exists []; split; [reflexivity|intros a b Hab; cbn in Hab; lia]].
    set (cs := checks 1 maxiter resprint (k + (if stopped then 1 else 0))).
    exists (map (fun j => resid_norm V (Wf (nth j cs 0%nat)) rk) (seq 0 (length cs))). split; [unfold dt_rows; rewrite !map_map; reflexivity|].
    intros a b Hab. rewrite map_length, seq_length in Hab. rewrite !nth_map_lt with (d:=0%nat) by (rewrite seq_length; lia).
    rewrite !seq_nth by lia. cbn [plus]. rewrite !(resid_norm_sqrt V) by apply (Wf_fac LA V F W rk 0 Hsh HW). apply sqrt_le_1_alt.
    rewrite <- !objective_zero. apply (f_mono LA V F W rk 0 Hsh H2 HW HZ Hl Hs Hz). unfold cs, checks.
    apply (checked_sorted (checked_at 1 maxiter resprint)). exact Hab.
Qed.
Print Assumptions C69_run.

(** ** C70.  With lambda > 0, a positive tolerance and no time-out, alsCP_DT converges within an explicit number of iterations *)
Lemma run_large {N : num} late (gn : nat -> N) (tol : N) ms rp q k stopped : run_spec late gn tol ms rp q k stopped ->
  forall i, (i < k)%nat -> checked_at q ms rp i = true -> nltb (gn i) tol = false.
Proof.
  intros [H _] i Hi Hc. destruct (H i Hi) as [_ Hs]. unfold stops_at in Hs. rewrite Hc in Hs. cbn [andb] in Hs. apply orb_false_iff in Hs. apply Hs.
Qed.
Lemma nltb_ge (a b : R) : nltb (n:=Rnum) a b = false -> b <= a.
Proof. cbn. destruct (Rltb_spec a b); [discriminate|lra]. Qed.
Lemma checked_multiple q ms (rp : Z) (a : nat) : (1 <= rp)%Z -> checked_at q ms rp (a * Z.to_nat rp) = true.
Proof.
  intros H. unfold checked_at. apply orb_true_iff. left. apply Z.eqb_eq. rewrite Nat2Z.inj_mul, Z2Nat.id by lia. apply Z.rem_mul. lia.
Qed.
(** the positive multiples of r below k *)
Lemma checks_from (chk : nat -> bool) (r w k : nat) : (1 <= r)%nat -> (forall q, chk (q * r)%nat = true) ->
  ((k - 1) / r - (w - 1) / r <= length (filter chk (seq w (k - w))))%nat.
Proof.
  intros Hr Hc. set (q := ((k - 1) / r)%nat). set (p := ((w - 1) / r)%nat).
  assert (Hq : (q * r <= k - 1)%nat) by (unfold q; rewrite Nat.mul_comm; apply Nat.mul_div_le; lia).
  assert (Hp : (w - 1 < (S p) * r)%nat) by (unfold p; rewrite Nat.mul_comm; apply Nat.mul_succ_div_gt; lia).
  transitivity (length (map (fun i => i * r)%nat (seq (S p) (q - p)))); [rewrite map_length, seq_length; lia|].
  apply NoDup_incl_length.
  - apply FinFun.Injective_map_NoDup; [intros a b E; apply Nat.mul_cancel_r in E; lia|apply seq_NoDup].
  - intros i Hi. apply in_map_iff in Hi as (a & <- & Ha). apply in_seq in Ha. apply filter_In. split; [apply in_seq; nia|apply Hc].
Qed.
Theorem C70_converges :
  forall (LA : lapack Rnum), svd_shaped (svd LA) ->
  forall (clock : nat -> R) (rank0 bench : bool) (V : tensor Rnum) (rk : nat) (W G F : list (tensor Rnum)) (tol limit lambda : R) (maxiter resprint : Z)
    (fuel : nat) (x : io (N:=Rnum)),
  (order V = 4 \/ 6 <= order V <= 19)%nat -> (order V < fuel)%nat ->
  factors_ok V W rk -> mats_ok V F rk -> mats_ok V G rk -> zero_mats V F rk -> (1 <= maxiter)%Z -> (1 <= resprint)%Z ->
  0 < lambda -> svd_valid_along (svd LA) lambda V F rk W -> factors_stay_nonzero (svd LA) lambda V F rk W ->
  (forall j, out_of_time (N:=Rnum) clock (ck x) limit j = false) ->
  0 < tol ->
  (let f0 := objective (lambda : Rnum) V W rk in
   trace_bound lambda f0 rk (order V) * f0 < IZR (maxiter / resprint) * (tol * tol)) ->
  exists st, alsCP_DT LA clock rank0 fuel V W G F (tol : Rnum) limit maxiter (lambda : Rnum) resprint bench x = Ok (true, st) /\
    dtpn st = grad_norm (dtG st) /\ dtpn st < tol /\
    objective (lambda : Rnum) V (dtW st) rk <= objective (lambda : Rnum) V W rk.
Proof.
  intros LA Hsh clock rank0 bench V rk W G F tol limit lambda maxiter resprint fuel x Ho Hf HW HF HG HZ Hm Hr Hl Hv Hz Hlate Ht Hbig.
  assert (H2 : (2 <= order V)%nat) by lia. assert (Hl0 : 0 <= lambda) by lra.
  assert (Hs := valid_along_solvable LA V F W rk lambda Hsh HW Hl Hz Hv).
  destruct (C26_alsCP_DT_run Rnum Rnum_ring LA Hsh clock rank0 V rk W G F tol limit maxiter lambda resprint bench fuel x Ho Hf HW HF HG ltac:(lia) ltac:(lia))
    as (k & stopped & st & E & Hrun & _ & EW & EG & Ep & _). unfold als_run in Hrun.
  set (Wf k := Nat.iter k (fun W => rescaled (als_sweep (pinv_solve (svd LA) rk) lambda V F rk W)) W) in *.
  set (Gf k := match k with O => G | S k' => als_grads (pinv_solve (svd LA) rk) lambda V F rk (Wf k') end) in *.
  set (f := fun k => objective (lambda : Rnum) V (Wf k) rk). cbv zeta in Hbig. change (objective (lambda : Rnum) V W rk) with (f 0%nat) in *.
  assert (Hmono : forall i j, (i <= j)%nat -> f j <= f i) by (apply (f_mono LA V F W rk lambda Hsh H2 HW HZ Hl0 Hs Hz)).
  assert (Hf0 : forall i, 0 <= f i) by (intros i; apply (objective_nonneg lambda V (Wf i) rk Hl0)).
  set (T := trace_bound lambda (f 0%nat) rk (order V)) in *.
  assert (HB : 0 <= f 0%nat / lambda) by (apply Rmult_le_pos; [apply Hf0|left; apply Rinv_0_lt_compat; auto]).
  assert (HT : 0 <= T) by (apply (T_pos V rk lambda (f 0%nat / lambda)); auto).
  assert (Hgn : forall i, grad_norm (Gf (i + 1)%nat) * grad_norm (Gf (i + 1)%nat) <= T * (f i - f (i + 1)%nat)).
  { intros i. replace (i + 1)%nat with (S i) by lia.
    apply (sweep_decrease LA V F W rk lambda Hsh H2 HW HZ Hl0 Hs Hz (f 0%nat) (f 0%nat / lambda) i HB (Hmono 0%nat i ltac:(lia))).
    intros W' HW' Hc m Hm'. eapply Rle_trans; [apply (factor_bound lambda V W' rk m Hl); destruct HW' as (_ & -> & _); exact Hm'|].
    apply Rmult_le_compat_r; [left; apply Rinv_0_lt_compat; auto|exact Hc]. }
  destruct stopped.
  - exists st. split; [exact E|]. rewrite Ep, EG by reflexivity. split; [reflexivity|]. split.
    + destruct (stopped_means _ _ _ _ _ _ _ Hrun) as [_ [H|H]]; [apply nltb_lt in H; exact H|]. rewrite Hlate in H. discriminate H.
    + rewrite EW. apply (Hmono 0%nat k). lia.
  - exfalso. destruct (run_ret _ _ _ _ _ _ _ Hrun ltac:(lia)) as [_ Hk].
    assert (Hlarge := run_large _ _ _ _ _ _ _ _ Hrun).
    assert (Hfew := few_large f 1 T tol (fun i => grad_norm (Gf i)) (checked_at 1 maxiter resprint) Hf0 HT Hmono Hgn k Ht
      ltac:(intros i Hi Hc; apply nltb_ge, Hlarge; auto; lia)).
    assert (Hmany := checks_from (checked_at 1 maxiter resprint) (Z.to_nat resprint) 1 k ltac:(lia) ltac:(intros q; apply checked_multiple; auto)).
    rewrite Nat.sub_diag, Nat.div_0_l, Nat.sub_0_r in Hmany by lia.
    assert (Eq : INR ((k - 1) / Z.to_nat resprint) = IZR (maxiter / resprint)).
    { rewrite INR_IZR_INZ. f_equal. rewrite Nat2Z.inj_div, Z2Nat.id by lia. f_equal. lia. }
    apply le_INR in Hmany. rewrite Eq in Hmany. change (INR 1) with 1 in Hfew. rewrite Rmult_1_l in Hfew.
    assert (0 < tol * tol) by (apply Rmult_lt_0_compat; auto).
    apply (Rmult_le_compat_r (tol * tol)) in Hmany; [|lra]. lra.
Qed.
Print Assumptions C70_converges.
