(** C71: convergence of CPD::als with the exact optimizers, over the reals. *)
From Coq Require Import List ZArith QArith Qround Reals Lra Lia Bool Arith.
From Verif Require Import Base Num NumR Tensor Spec Spec3 Spec4 Spec10 Spec11 Spec18 Spec19 MCommon MCP MCPD PBase PTensor PSum PMttkrp PMat PMatAlg PResid PGrad PNormalize PALS PCPD PCPD2 PDrivers2
  PTuckMono PropCPD PropTucker3 PConv PConv2 PConv3 PConv4 PConv5 PropConv.
Import ListNotations.
Local Close Scope Q_scope.
Local Open Scope R_scope.

(** for lambda > 0 every system matrix of a normal equation is symmetric positive definite, whatever the factors are *)
Theorem C71_systems_positive_definite :
  forall (V : tensor Rnum) (W : list (tensor Rnum)) (rk n : nat) (lambda : R),
  factors_ok V W rk -> (n < order V)%nat -> (0 < nth n (lens V) 0)%nat -> 0 < lambda ->
  symmetric (als_lhs (lambda : Rnum) W rk n) rk /\ positive_definite (als_lhs (lambda : Rnum) W rk n) rk.
Proof. intros V W rk n lambda HW Hn H0 Hl. split; [apply lhs_sym|eapply lhs_posdef; eauto]. Qed.
Print Assumptions C71_systems_positive_definite.

Lemma sweeps_le q k : (0 <= q)%Q -> (q <= 1)%Q -> (Qfloor (sweeps_after q k) <= Z.of_nat k)%Z.
Proof.
  intros H0 H1. rewrite <- (Qfloor_Z (Z.of_nat k)). apply Qfloor_resp_le. apply Qle_trans with (Z.of_nat k * 8192 # 8192)%Q; [|unfold Qle, inject_Z; cbn [Qnum Qden]; lia].
  apply sweeps_le_mul. apply Qle_trans with 1%Q; [exact H1|unfold Qle; cbn; lia].
Qed.
Lemma part_le m o : (2 <= o)%nat -> (0 <= method_part m o)%Q /\ (method_part m o <= 1)%Q.
Proof.
  intros Ho. assert (Hp : Z.pos (Pos.of_nat o) = Z.of_nat o) by (apply pos_of_nat; lia).
  destruct m; cbn [method_part]; unfold Qle; cbn [Qnum Qden]; rewrite ?Hp; split; lia.
Qed.
Lemma repeat_pos size : (1 <= size)%nat -> forall o n, (n < o)%nat -> (0 < nth n (repeat size o) 0)%nat.
Proof. intros H. induction o as [|o IH]; intros n Hn; [lia|]. destruct n; cbn [repeat nth]; [lia|apply IH; lia]. Qed.
Theorem C71_converges :
  forall (LA : lapack Rnum) (rk : nat),
  tri_shaped (cholesky LA) (solve_tri LA) -> low_shaped (svd LA) (qr_q LA) (rnd LA) -> cholesky_works (cholesky LA) (solve_tri LA) rk ->
  forall (clock : nat -> R) (rank0 bench : bool) (V : tensor Rnum) (size : nat) (W G : list (tensor Rnum)) (lambda tol limit : R) (m : cpd_method)
    (wf : nat) (maxsweep resprint : Z) (x : io (N:=Rnum)),
  m = Simple \/ m = TwoSubtree \/ m = MultiSweep ->
  method_ok m (order V) size rk -> lens V = repeat size (order V) -> (1 <= size)%nat -> factors_ok V W rk -> mats_ok V G rk ->
  (1 <= maxsweep)%Z -> (1 <= resprint)%Z -> (2 * (Z.to_nat maxsweep + 1) <= wf)%nat ->
  0 < lambda -> 0 < tol -> (forall j, out_of_time (N:=Rnum) clock (ck x) limit j = false) ->
  (let f0 := objective (lambda : Rnum) V W rk in
   2 * trace_bound lambda f0 rk (order V) * f0 < IZR (maxsweep / resprint - 1) * (tol * tol)) ->
  exists W' G' gn rows,
    cpd_run LA clock rank0 m wf (order V) size rk V W G (lambda : Rnum) tol limit maxsweep resprint bench x = Ok (true, (W', G'), gn, rows) /\
    gn = grad_norm G' /\ gn < tol /\ objective (lambda : Rnum) V W' rk <= objective (lambda : Rnum) V W rk.
Proof.
  intros LA rk Hsh Hlow Hc clock rank0 bench V size W G lambda tol limit m wf maxsweep resprint x Hm Hok HV Hsz HW HG Hms Hrp Hwf Hl Ht Hlate Hbig.
  assert (He : exact_method m) by (destruct Hm as [->|[->| ->]]; exact I).
  assert (H2 : (2 <= order V)%nat) by (destruct Hm as [->|[->| ->]]; cbn [method_ok] in Hok; lia).
  assert (HV0 : forall n, (n < order V)%nat -> (0 < nth n (lens V) 0)%nat) by (intros n Hn; rewrite HV; apply repeat_pos; auto).
  assert (Hl0 : 0 <= lambda) by lra.
  destruct (C24_als_run Rnum Rnum_ring LA clock rank0 V size rk W G lambda m wf tol limit maxsweep resprint bench x Hsh Hlow Hok HV HW HG ltac:(lia) ltac:(lia) Hwf)
    as (k & stopped & gn & rws & E & _ & Hrun & Egn & _). unfold als_run in Hrun.
  set (st k := method_state m LA lambda V rk W G k) in *. set (f := fun k => objective (lambda : Rnum) V (fst (st k)) rk). cbv zeta in Hbig.
  assert (E0 : st 0%nat = (W, G)) by (apply (st_0 LA V W G rk lambda m He)).
  assert (Ef : objective (lambda : Rnum) V W rk = f 0%nat) by (unfold f; rewrite E0; reflexivity).
  assert (Hmono : forall i j, (i <= j)%nat -> f j <= f i) by (apply (cpd_mono LA V W G rk lambda m Hc H2 HV0 HW HG Hl He)).
  assert (Hf0 : forall i, 0 <= f i) by (intros i; apply (objective_nonneg lambda V (fst (st i)) rk Hl0)).
  assert (Hgn : forall i, grad_norm (snd (st (i + 2)%nat)) * grad_norm (snd (st (i + 2)%nat)) <= trace_bound lambda (f 0%nat) rk (order V) * (f i - f (i + 2)%nat)).
  { intros i. rewrite <- Ef. apply (window LA V W G rk lambda m Hc H2 HV0 HW HG Hl He i). }
  rewrite Ef in *. set (T := trace_bound lambda (f 0%nat) rk (order V)) in *.
  assert (HB : 0 <= f 0%nat / lambda) by (apply Rmult_le_pos; [apply Hf0|left; apply Rinv_0_lt_compat; auto]).
  assert (HT : 0 <= T) by (apply (T_pos V rk lambda (f 0%nat / lambda)); auto).
  destruct stopped.
  - exists (fst (st k)), (snd (st k)), gn, rws. rewrite <- surjective_pairing. split.
    + rewrite E. do 4 f_equal. destruct Hrun as [_ [Hk _]]. rewrite negb_true_iff. destruct (Qeq_bool _ _) eqn:Eq; [|reflexivity].
      apply Qeq_bool_eq in Eq. rewrite Eq, Qfloor_Z in Hk. lia.
    + rewrite Egn by reflexivity. split; [reflexivity|]. split; [|apply (Hmono 0%nat k); lia].
      destruct (stopped_means _ _ _ _ _ _ _ Hrun) as [_ [H|H]]; [apply nltb_lt in H; exact H|]. rewrite Hlate in H. discriminate H.
  - exfalso. assert (Hlarge := run_large _ _ _ _ _ _ _ _ Hrun). destruct Hrun as [_ Hk].
    assert (Hk' : (maxsweep + 1 <= Z.of_nat k)%Z).
    { destruct (part_le m (order V) H2) as [P1 P2]. pose proof (sweeps_le _ k P1 P2). lia. }
    set (chk := checked_at (method_part m (order V)) maxsweep resprint) in *.
    assert (Hfew := few_large f 2 T tol (fun i => grad_norm (snd (st i))) chk Hf0 HT Hmono Hgn k Ht ltac:(intros i Hi Hch; apply nltb_ge, Hlarge; auto; lia)).
    assert (Hmany := checks_from chk (Z.to_nat resprint) 2 k ltac:(lia) ltac:(intros q; apply checked_multiple; auto)).
    assert (Hq : IZR (maxsweep / resprint - 1) <= INR (length (filter chk (seq 2 (k - 2))))).
    { eapply Rle_trans; [|apply le_INR; exact Hmany]. rewrite INR_IZR_INZ. apply IZR_le.
      assert (A : ((2 - 1) / Z.to_nat resprint <= 1)%nat) by (apply Nat.div_le_upper_bound; lia).
      assert (B : (maxsweep / resprint <= Z.of_nat ((k - 1) / Z.to_nat resprint))%Z).
      { rewrite Nat2Z.inj_div, Z2Nat.id by lia. apply Z.div_le_mono; lia. }
      lia. }
    change (INR 2) with 2 in Hfew. assert (0 < tol * tol) by (apply Rmult_lt_0_compat; auto).
    apply (Rmult_le_compat_r (tol * tol)) in Hq; [|lra]. lra.
Qed.
Print Assumptions C71_converges.
