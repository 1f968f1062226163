(** C73 (finding): Normalize inside the approximate phase rescales the factors but not the perturbations, so that from the second sweep
    on the expansion approximates the MTTKRP of other factors than the current ones: an error of first order, and a perfect fit is lost.
    Also the concrete case of C72. *)
From Coq Require Import List ZArith Lia Bool Arith Reals Lra.
From Verif Require Import Base Num NumR Tensor Spec Spec2 Spec7 Spec12 Spec18 Spec20 MCommon MCP PBase PTensor PSum PMttkrp PPart PMat PMatAlg PResid PGrad PRank PNormalize PALS
  PMono PMono2 PTree PDT PDTSweep PDrivers PPP PPPSweep PPPDriver PDriverRef PConv PConv2 PPPMulti PErr PErr2 PErr3 PropPP PropConv3 PropErr.
Import ListNotations.
Local Open Scope R_scope.
Local Notation RL := Rnum_ring.
Local Notation bs := (bigsum (N:=Rnum)).
Local Notation bp := (bigprod (N:=Rnum)).

(** rescaling changes the MTTKRP of mode n by the factor |P_n| / (common norm) *)
Theorem C73_rescaled_mttkrp :
  forall (V : tensor Rnum) (P : list (tensor Rnum)) (rk n : nat),
  (1 <= order V)%nat -> (n < order V)%nat -> factors_ok V P rk -> (forall m, (m < order V)%nat -> norm2 (fac P m) <> 0) ->
  mttkrp V (rescaled P) n rk = mscal (N:=Rnum) (norm2 (fac P n) / norm2 (fac (rescaled P) n)) (mttkrp V P n rk).
Proof.
  intros V P rk n Ho Hn HP HN. pose proof HP as (HV & LP & HM).
  assert (K : forall q, (q < length P)%nat -> is_mat (fac P q) (nrow (fac P q)) rk /\ norm2 (fac P q) <> 0).
  { intros q Hq. rewrite LP in Hq. pose proof (HM q Hq) as HMq. rewrite (is_mat_nrow _ _ _ HMq). auto. }
  destruct (rescaled_norms P rk n ltac:(lia) K ltac:(lia)) as (E1 & E2 & G0). rewrite E1. clear E1. set (g := Rroot (length P) (bp P norm2)) in *.
  assert (FR : forall m, (m < order V)%nat -> fac (rescaled P) m = mscal (N:=Rnum) (g / norm2 (fac P m)) (fac P m)).
  { intros m Hm. unfold rescaled, fac. rewrite (nth_map_lt _ _ _ tnil) by lia. reflexivity. }
  apply (mat_ext _ _ (nth n (lens V) 0%nat) rk); [apply mttkrp_mat|apply mscal_mat, mttkrp_mat|]. intros i k Hi Hk.
  rewrite (el_mscal _ _ _ _ _ _ (mttkrp_mat V rk P n)) by auto. rewrite !el_mttkrp by auto. unfold mttkrp_at. fold (order V).
  change (nmul (n:=Rnum)) with Rmult. rewrite <- bs_mul_l. apply bs_ext. intros x Hx. apply filter_In in Hx as [Hx _]. apply all_idx_in in Hx.
  assert (PF : bp (others n (order V)) (fun m => g / norm2 (fac P m)) = norm2 (fac P n) / g).
  { assert (B : bp P norm2 = bp (seq 0 (order V)) (fun m => norm2 (fac P m))).
    { rewrite <- (bigprod_map (fac P)). f_equal. apply nth_ext with (d:=tnil) (d':=tnil); [rewrite map_length, seq_length; auto|]. intros m Hm. rewrite (nth_map_lt _ _ _ 0%nat) by (rewrite seq_length; lia). rewrite nth_seq by lia. reflexivity. }
    rewrite B in E2. rewrite (bigprod_others RL n (order V)) in E2 by auto.
    assert (Q : bp (others n (order V)) (fun m => g / norm2 (fac P m)) * bp (others n (order V)) (fun m => norm2 (fac P m)) = g ^ (order V - 1)).
    { rewrite <- bp_mul, <- (others_length n (order V)), <- bp_const by auto. apply bp_ext. intros m Hm. apply others_in in Hm as [Hm _]. specialize (HN m Hm).
      set (u := norm2 (fac P m)) in *. clearbody u. change (g / u * u = g). field. exact HN. }
    assert (W0 : 0 < bp (others n (order V)) (fun m => norm2 (fac P m))).
    { apply bp_pos. intros m Hm. apply others_in in Hm as [Hm _]. apply pos_of; [apply norm2_nonneg|auto]. }
    set (A := bp (others n (order V)) (fun m => g / norm2 (fac P m))) in *. set (B' := bp (others n (order V)) (fun m => norm2 (fac P m))) in *.
    clearbody A B' g. rewrite LP in E2. apply (Rmult_eq_reg_r (B' * g)); [|apply Rgt_not_eq, Rmult_lt_0_compat; auto].
    replace (A * (B' * g)) with (g * (A * B')) by ring. rewrite Q.
    replace (norm2 (fac P n) / g * (B' * g)) with (norm2 (fac P n) * B') by (field; lra).
    replace (order V) with (S (order V - 1)) in E2 at 1 by lia. etransitivity; [|exact E2]. reflexivity. }
  rewrite <- PF. clear PF E2.
  transitivity (at_ V x * (bp (others n (order V)) (fun m => g / norm2 (fac P m)) * bp (others n (order V)) (fun m => el (fac P m) (nth m x 0%nat) k))).
  - f_equal. rewrite <- bp_mul. apply bp_ext. intros m Hm. apply others_in in Hm as [Hm _]. rewrite FR by auto. rewrite (el_mscal _ _ _ _ _ _ (HM m Hm)); auto.
    assert (Hb := inb_nth _ _ m Hx). apply Hb. exact Hm.
  - rring.
Qed.
Print Assumptions C73_rescaled_mttkrp.
Lemma norm2_sub_tri (A B C : tensor Rnum) r c : is_mat A r c -> is_mat B r c -> is_mat C r c -> norm2 (msub A B) - norm2 (msub B C) <= norm2 (msub A C).
Proof.
  intros HA HB HC. unfold msub. rewrite !norm2_tabulate. destruct HA as [-> _]. destruct HB as [-> _].
  assert (H := minkowski (all_idx [r; c]) (fun x => at_ A x - at_ C x) (fun x => at_ C x - at_ B x)).
  assert (E1 : nrm (all_idx [r; c]) (fun x => at_ A x - at_ C x + (at_ C x - at_ B x)) = nrm (all_idx [r; c]) (fun x => at_ A x - at_ B x)) by (apply nrm_ext; intros; ring).
  assert (E2 : nrm (all_idx [r; c]) (fun x => at_ C x - at_ B x) = nrm (all_idx [r; c]) (fun x => at_ B x - at_ C x)).
  { unfold nrm. f_equal. apply bs_ext. intros; ring. }
  cbv beta in H. rewrite E1, E2 in H. change (nsub (n:=Rnum)) with Rminus. lra.
Qed.
Lemma norm2_scaled_diff (c : R) (B : tensor Rnum) r k : is_mat B r k -> norm2 (msub (mscal (N:=Rnum) c B) B) = Rabs (c - 1) * norm2 B.
Proof.
  intros HB. unfold msub. rewrite norm2_tabulate. pose proof HB as [EB wB]. change (lens (mscal (N:=Rnum) c B)) with (lens B). rewrite (norm2_nrm B) by auto.
  rewrite (nrm_ext _ _ (fun x => (c - 1) * at_ B x)).
  - unfold nrm. rewrite (bs_ext _ _ (fun x => (c - 1) * (c - 1) * (at_ B x * at_ B x))) by (intros; ring). rewrite bs_mul_l, sqrt_mult_alt by apply Rle_0_sqr.
    f_equal. apply sqrt_Rsqr_abs.
  - intros x Hx. apply all_idx_in in Hx. unfold mscal. rewrite at_tabulate by auto. change (c * at_ B x - at_ B x = (c - 1) * at_ B x). ring.
Qed.

(** after a sweep that left W' and dW', the next sweep uses for mode 0 a matrix M whose distance from the MTTKRP of the current factors W' is at
    least | |P_0|/g - 1 | |MTTKRP(P)| minus the second-order error of C72, with P = W0 + dW' and g the common norm of the factors W' *)
Theorem C73_first_order_error :
  forall (LA : lapack Rnum), svd_shaped (svd LA) ->
  forall (same : bool) (V : tensor Rnum) (W0 W dW G : list (tensor Rnum)) (rk : nat) (Sm : tensor Rnum) (lambda ratio : Rnum) (regul : tensor Rnum)
    (seqV : buf Z) (table : smap (tensor Rnum)) W' G' dW' Sm' seqV' M,
  (3 <= order V <= 9)%nat -> factors_ok V W0 rk -> factors_ok V W rk -> mats_ok V dW rk -> mats_ok V G rk -> lens Sm = [rk; rk] ->
  mk_seqV (order V) = Ok seqV -> mk_regul rk lambda = Ok regul -> build_operators same V W0 seqV = Ok table ->
  PP_sweep LA V table W0 lambda ratio regul seqV W G dW Sm seqV = Ok (W', G', dW', Sm', seqV') ->
  (forall m, (m < order V)%nat -> norm2 (fac (perturbed W0 dW') m) <> 0) ->
  pp_M V table seqV dW' (nth 0 (lens V) 0%nat) rk 0 = Ok M ->
  Rabs (norm2 (fac (perturbed W0 dW') 0) / norm2 (fac W' 0) - 1) * norm2 (mttkrp V (perturbed W0 dW') 0 rk)
    - norm2 V * second_order (others 0 (order V)) (fun m => norm2 (fac W0 m)) (fun m => norm2 (fac dW' m))
  <= norm2 (msub (mttkrp V W' 0 rk) M).
Proof.
  intros LA Hsh same V W0 W dW G rk Sm lambda ratio regul seqV table W' G' dW' Sm' seqV' M Ho HW0 HW HD HG HS Es Er Eb E HP EM.
  destruct (C72_sweep_leaves LA Hsh same V W0 W dW G rk Sm lambda ratio regul seqV table W' G' dW' Sm' seqV') as [EW HD']; auto.
  destruct (C72_mttkrp_error same V W0 dW' rk 0 seqV table) as (M' & EM' & HM'); auto; [lia|]. rewrite EM in EM'. injection EM' as <-.
  destruct (C11_pp_mttkrp Rnum RL same V W0 dW' rk 0 seqV table) as (M' & EM' & HMm & _); auto; [lia|]. rewrite EM in EM'. injection EM' as <-.
  assert (FP : factors_ok V (perturbed W0 dW') rk).
  { pose proof HW0 as (HV & L0 & HM0). split; auto. unfold perturbed. rewrite L0. split; [rewrite map_length, seq_length; auto|].
    intros m Hm. rewrite (fac_map_seq (fun m => madd (fac W0 m) (fac dW' m))) by auto. apply madd_mat; auto. }
  assert (EK := C73_rescaled_mttkrp V (perturbed W0 dW') rk 0 ltac:(lia) ltac:(lia) FP HP). rewrite <- EW in EK.
  eapply Rle_trans; [|apply (norm2_sub_tri _ (mttkrp V (perturbed W0 dW') 0 rk) _ (nth 0 (lens V) 0%nat) rk); auto using mttkrp_mat].
  rewrite EK, (norm2_scaled_diff _ _ (nth 0 (lens V) 0%nat) rk) by apply mttkrp_mat. apply Rplus_le_compat_l, Ropp_le_contravar. exact HM'.
Qed.
Print Assumptions C73_first_order_error.

(** a perfect fit is lost.  A tensor with the single entry g^4, checkpoint factors 1, 1, 1, 1, no regularisation, undamped: the first sweep
    of the approximate phase finds factors g, g, g, g with residual 0; the guard lets the phase go on; the second sweep has a non-zero residual *)
Theorem C73_fit_lost :
  forall (g e : R), 0 < g -> g <> 1 -> Rabs (g ^ 4 - 1) <= e * g ->
  exists seqV regul table W1 G1 dW1 S1 W2 G2 dW2 S2,
    let V := single (g ^ 4) in
    mk_seqV 4 = Ok seqV /\ mk_regul (N:=Rnum) 1 (0 : Rnum) = Ok regul /\ build_operators false V ones seqV = Ok table /\
    dw_count 4 (e : Rnum) ones (four 0 0 0 0) = Ok 0%nat /\
    PP_sweep LA1 V table ones (0 : Rnum) (1 : Rnum) regul seqV ones (four 0 0 0 0) (four 0 0 0 0) (one_by_one 0) seqV = Ok (W1, G1, dW1, S1, seqV) /\
    resid_norm V W1 1 = 0 /\ dw_count 4 (e : Rnum) W1 dW1 = Ok 0%nat /\
    PP_sweep LA1 V table ones (0 : Rnum) (1 : Rnum) regul seqV W1 G1 dW1 S1 seqV = Ok (W2, G2, dW2, S2, seqV) /\
    resid_norm V W2 1 <> 0.
Proof.
  intros g e Hg Hne He.
  assert (E0 : 0 <= e). { apply (Rmult_le_reg_r g); auto. rewrite Rmult_0_l. eapply Rle_trans; [apply Rabs_pos|exact He]. }
  assert (Cnt : forall x d, 0 < x -> Rabs d <= e * x -> dw_count 4 (e : Rnum) (four x x x x) (four d 0 0 0) = Ok 0%nat).
  { intros x d Hx Hd. assert (K : forall y, Rabs y <= e * x -> Rltb e (Rabs (norm2 (one_by_one y) / norm2 (one_by_one x))) = false).
    { intros y Hy. rewrite (norm1 x) by lra. rewrite norm1_abs. destruct (Rltb_spec e (Rabs (Rabs y / x))) as [L|]; auto. exfalso.
      rewrite Rabs_pos_eq in L by (apply Rmult_le_pos; [apply Rabs_pos|apply Rlt_le, Rinv_0_lt_compat; auto]).
      apply (Rmult_lt_compat_r x) in L; auto. replace (Rabs y / x * x) with (Rabs y) in L by (field; lra). lra. }
    assert (K0 := K 0 ltac:(rewrite Rabs_R0; apply Rmult_le_pos; lra)). assert (Kd := K d Hd).
    rewrite (dw_count_ok LA1 (single 1) 1); [|apply four_ok|apply four_mats]. f_equal.
    change (length (filter (fun m => Rltb e (Rabs (norm2 (fac (four d 0 0 0) m) / norm2 (fac (four x x x x) m)))) [0; 1; 2; 3]%nat) = 0%nat). cbn [filter]. change (fac (four d 0 0 0) 0) with (one_by_one d). change (fac (four d 0 0 0) 1) with (one_by_one 0). change (fac (four d 0 0 0) 2) with (one_by_one 0). change (fac (four d 0 0 0) 3) with (one_by_one 0).
    change (fac (four x x x x) 0) with (one_by_one x). change (fac (four x x x x) 1) with (one_by_one x). change (fac (four x x x x) 2) with (one_by_one x). change (fac (four x x x x) 3) with (one_by_one x).
    rewrite Kd, K0. reflexivity. }
  destruct (C09_operators_exact Rnum RL false (single (g ^ 4)) ones 1 (lbuf 4) ltac:(cbn; lia) (four_ok _ _ _ _ _) (mk_seqV_ok 4)) as (table & Et & _).
  destruct (C11_sweep Rnum RL LA1 LA1_svd_shaped false (single (g ^ 4)) ones ones (four 0 0 0 0) (four 0 0 0 0) 1 (one_by_one 0) (0 : Rnum) (1 : Rnum) (mscal (0 : Rnum) (mid 1)) (lbuf 4) table
     ltac:(cbn; lia) (Reqb_eq _ _) (Reqb_eq _ _) (four_ok _ _ _ _ _) (four_ok _ _ _ _ _) (four_mats _ _ _ _ _) (four_mats _ _ _ _ _) eq_refl (mk_seqV_ok 4) (mk_regul_ok RL 1 _) Et) as (S1 & E1).
  rewrite (first_sweep g Hg) in E1. cbn [fst snd] in E1.
  set (G1 := pp_grads solve1 (0 : Rnum) (1 : Rnum) (single (g ^ 4)) ones 1 (ones, four 0 0 0 0)) in E1.
  assert (HG1 : mats_ok (single (g ^ 4)) G1 1) by (apply (pp_grads_mats RL LA1 _ _ LA1_svd_shaped); [apply four_ok|apply four_ok|apply four_mats]).
  assert (HS1 : lens S1 = [1%nat; 1%nat]).
  { destruct (PP_sweep_ok RL (single (g ^ 4)) 1 LA1 LA1_svd_shaped table ones ones (four 0 0 0 0) (four 0 0 0 0) (one_by_one 0) (0 : Rnum) (1 : Rnum) ltac:(cbn; lia) (Reqb_eq _ _) (Reqb_eq _ _) (four_ok _ _ _ _ _) (four_ok _ _ _ _ _) (four_mats _ _ _ _ _) (four_mats _ _ _ _ _) eq_refl) as (S1' & E1' & HS').
    - destruct (C09_operators_exact Rnum RL false (single (g ^ 4)) ones 1 (lbuf 4) ltac:(cbn; lia) (four_ok _ _ _ _ _) (mk_seqV_ok 4)) as (t' & Et' & H1 & H2 & _).
      rewrite Et in Et'. injection Et' as <-. split; auto.
    - change (order (single (g ^ 4))) with 4%nat in E1'. rewrite E1' in E1. assert (S1' = S1) by congruence. subst. exact HS'. }
  destruct (C11_sweep Rnum RL LA1 LA1_svd_shaped false (single (g ^ 4)) ones (four g g g g) (four (g ^ 4 - 1) 0 0 0) G1 1 S1 (0 : Rnum) (1 : Rnum) (mscal (0 : Rnum) (mid 1)) (lbuf 4) table
     ltac:(cbn; lia) (Reqb_eq _ _) (Reqb_eq _ _) (four_ok _ _ _ _ _) (four_ok _ _ _ _ _) (four_mats _ _ _ _ _) HG1 HS1 (mk_seqV_ok 4) (mk_regul_ok RL 1 _) Et) as (S2 & E2).
  rewrite (second_sweep g Hg) in E2. cbn [fst snd] in E2.
  exists (lbuf 4), (mscal (0 : Rnum) (mid 1)), table. do 8 eexists. cbv zeta.
  split; [apply mk_seqV_ok|]. split; [apply (mk_regul_ok RL)|]. split; [exact Et|].
  split; [apply Cnt; [lra|rewrite Rabs_R0; lra]|].
  split; [exact E1|]. split; [apply first_fit; auto|]. split; [apply Cnt; auto|]. split; [exact E2|]. apply (second_misfit g Hg Hne).
Qed.
Print Assumptions C73_fit_lost.
(** for instance with g = 1.02 and tol_init = 0.1 *)
Theorem C73_case : 0 < 51 / 50 /\ 51 / 50 <> 1 /\ Rabs ((51 / 50) ^ 4 - 1) <= / 10 * (51 / 50).
Proof. split; [lra|]. split; [lra|]. rewrite Rabs_pos_eq; lra. Qed.

(** ** C72: a sweep that meets all hypotheses of C72_guarded_sweep, with a factor that has moved *)
Theorem C72_case :
  exists (V : tensor Rnum) (W0 dW G : list (tensor Rnum)) Sm seqV regul table W' G' dW' Sm' seqV' (a e : R) Wn Gn dWn Smn seqVn M,
  (3 <= order V <= 9)%nat /\ factors_ok V W0 1 /\ mats_ok V dW 1 /\ mats_ok V G 1 /\ lens Sm = [1; 1]%nat /\
  mk_seqV (order V) = Ok seqV /\ mk_regul (N:=Rnum) 1 (0 : Rnum) = Ok regul /\ build_operators false V W0 seqV = Ok table /\
  0 <= e < 1 /\ 0 < a /\ (forall m, (m < order V)%nat -> norm2 (fac W0 m) = a) /\
  W0 = rescaled (perturbed W0 dW) /\ dw_count (order V) (e : Rnum) W0 dW = Ok 0%nat /\
  PP_sweep LA1 V table W0 (0 : Rnum) (1 : Rnum) regul seqV W0 G dW Sm seqV = Ok (W', G', dW', Sm', seqV') /\
  dw_count (order V) (e : Rnum) W' dW' = Ok 0%nat /\
  (forall m, (m < order V)%nat -> norm2 (madd (fac W0 m) (fac dW m)) <> 0 /\ norm2 (madd (fac W0 m) (fac dW' m)) <> 0) /\
  for_ 0 1 (PP_mode LA1 V table W0 (0 : Rnum) (1 : Rnum) regul seqV) (W0, G, dW, Sm, seqV) = Ok (Wn, Gn, dWn, Smn, seqVn) /\
  pp_M V table seqV dWn (nth 1 (lens V) 0%nat) 1 1 = Ok M /\ 0 < norm2 (fac dWn 0).
Proof.
  set (g := 51 / 50). assert (Hg : 0 < g) by (unfold g; lra).
  destruct (C73_fit_lost g (/ 10) Hg (proj1 (proj2 C73_case)) (proj2 (proj2 C73_case))) as (seqV & regul & table & W1 & G1 & dW1 & S1 & _ & _ & _ & _ & Es & Er & Et & Ec & E1 & _ & Ec1 & _).
  rewrite mk_seqV_ok in Es. assert (Eq : seqV = lbuf 4) by (injection Es; auto). subst seqV. clear Es.
  rewrite (mk_regul_ok RL) in Er. assert (Eg : regul = mscal (0 : Rnum) (mid 1)) by (injection Er; auto). subst regul. clear Er.
  destruct (C09_operators_exact Rnum RL false (single (g ^ 4)) ones 1 (lbuf 4) ltac:(cbn; lia) (four_ok _ _ _ _ _) (mk_seqV_ok 4)) as (t' & Et' & H1 & H2 & _).
  rewrite Et in Et'. assert (t' = table) by (injection Et'; auto). subst t'. clear Et'.
  destruct (prefix LA1 LA1_svd_shaped (single (g ^ 4)) 1 table ones ones (four 0 0 0 0) (four 0 0 0 0) (one_by_one 0) (0 : Rnum) (1 : Rnum) 1
     ltac:(cbn; lia) ltac:(cbn; lia) (Reqb_eq _ _) (Reqb_eq _ _) (four_ok _ _ _ _ _) (four_ok _ _ _ _ _) (four_mats _ _ _ _ _) (four_mats _ _ _ _ _) eq_refl (conj H1 H2)) as (Gn & Sn & En).
  change (four 1 1 1 1) with ones in En. rewrite (proj1 (first_upto g Hg)) in En. cbn [fst snd] in En.
  destruct (C11_sweep Rnum RL LA1 LA1_svd_shaped false (single (g ^ 4)) ones ones (four 0 0 0 0) (four 0 0 0 0) 1 (one_by_one 0) (0 : Rnum) (1 : Rnum) (mscal (0 : Rnum) (mid 1)) (lbuf 4) table
     ltac:(cbn; lia) (Reqb_eq _ _) (Reqb_eq _ _) (four_ok _ _ _ _ _) (four_ok _ _ _ _ _) (four_mats _ _ _ _ _) (four_mats _ _ _ _ _) eq_refl (mk_seqV_ok 4) (mk_regul_ok RL 1 _) Et) as (S1' & E1').
  rewrite (first_sweep g Hg) in E1'. cbn [fst snd] in E1'. pose proof (eq_trans (eq_sym E1) E1') as E3. assert (ED : dW1 = four (g ^ 4 - 1) 0 0 0) by congruence. clear E3 E1'. subst dW1.
  destruct (C72_mttkrp_error false (single (g ^ 4)) ones (four (g ^ 4 - 1) 0 0 0) 1 1 (lbuf 4) table ltac:(cbn; lia) ltac:(cbn; lia) (four_ok _ _ _ _ _) (four_mats _ _ _ _ _) (mk_seqV_ok 4) Et) as (M & EM & _).
  assert (N1 : forall m, (m < order (single (g ^ 4)))%nat -> norm2 (fac ones m) = 1).
  { intros m Hm. cbn in Hm. do 4 (destruct m as [|m]; [apply norm1; lra|]). lia. }
  exists (single (g ^ 4)), ones, (four 0 0 0 0), (four 0 0 0 0), (one_by_one 0), (lbuf 4), (mscal (0 : Rnum) (mid 1)), table, W1, G1, (four (g ^ 4 - 1) 0 0 0), S1, (lbuf 4), 1, (/ 10).
  do 5 eexists. exists M. pose proof (pow_lt g 4 Hg) as V0.
  split; [cbn; lia|]. split; [apply four_ok|]. split; [apply four_mats|]. split; [apply four_mats|]. split; [reflexivity|]. split; [apply mk_seqV_ok|]. split; [apply (mk_regul_ok RL)|].
  split; [exact Et|]. split; [lra|]. split; [lra|]. split; [exact N1|].
  split. { symmetry. change (perturbed ones (four 0 0 0 0)) with (four (1 + 0) (1 + 0) (1 + 0) (1 + 0)). rewrite Rplus_0_r. apply (rescaled_four 1 1 1 1 1); lra. }
  split; [exact Ec|]. split; [exact E1|]. split; [exact Ec1|].
  split. { intros m Hm. cbn in Hm. do 4 (destruct m as [|m]; [unfold ones; cbn [fac four nth]; rewrite !add1, !norm1 by lra; split; lra|]). lia. }
  split; [exact En|]. split; [exact EM|].
  change (0 < norm2 (one_by_one (g ^ 4 - 1))). assert (1 < g ^ 4) by (unfold g; lra). rewrite norm1 by lra. lra.
Qed.
Print Assumptions C72_case.
