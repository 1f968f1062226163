(** Cases for C69, C70 and C71: tensors with positive entries, rank 1, positive starting factors. *)
From Coq Require Import List ZArith QArith Qround Reals Lra Lia Bool Arith.
From Verif Require Import Base Num NumR Tensor Spec Spec3 Spec4 Spec10 Spec11 Spec18 Spec19 MCommon MCP MCPD PBase PTensor PSum PMttkrp PMat PMatAlg PResid PGrad PRank PSolve PNormalize PALS PMono PMono2 PPPDriver PCPD PCPD2 PDrivers2
  PTuckMono PropCPD PropTucker3 PConv PConv2 PConv3 PConv4 PConv5 PropConv PropConv2.
Import ListNotations.
Local Close Scope Q_scope.
Local Open Scope R_scope.
Local Notation RL := Rnum_ring.
Local Notation bs := (bigsum (N:=Rnum)).

(** decompositions that are right for 1 x 1 matrices (and have the right shapes for all) *)
Definition delta (r c : nat) : tensor Rnum := tabulate [r; c] (fun x => if Nat.eqb (nth 0 x 0%nat) (nth 1 x 0%nat) then 1 : Rnum else 0).
Definition LA1 : lapack Rnum :=
  @mkLapack Rnum (fun S k => (delta (nrow S) k, tabulate [k] (fun x => el S (nth 0 x 0%nat) (nth 0 x 0%nat)), delta k (ncol S)))
    (fun S => tabulate (lens S) (fun x => sqrt (at_ S x) : Rnum))
    (fun B L _ _ _ => tabulate (lens B) (fun x => at_ B x / el L 0 0 : Rnum)) (fun A => A) (fun _ ls => zeros ls).
Lemma delta_mat r c : is_mat (delta r c) r c.
Proof. split; [reflexivity|apply tabulate_wf]. Qed.
Lemma delta_mid k : delta k k = mid k.
Proof. reflexivity. Qed.
Lemma LA1_svd_shaped : svd_shaped (svd LA1).
Proof.
  intros S k HS. cbn. rewrite (is_mat_nrow _ _ _ HS), (is_mat_ncol _ _ _ HS). split; [apply delta_mat|]. split; [reflexivity|]. split; [apply tabulate_wf|apply delta_mat].
Qed.
Lemma LA1_tri_shaped : tri_shaped (cholesky LA1) (solve_tri LA1).
Proof.
  split.
  - intros S k [HS _]. cbn. rewrite HS. split; [reflexivity|apply tabulate_wf].
  - intros B L r k b1 b2 b3 [HB _] _. cbn. rewrite HB. split; [reflexivity|apply tabulate_wf].
Qed.
Lemma LA1_low_shaped : low_shaped (svd LA1) (qr_q LA1) (rnd LA1).
Proof.
  split; [|split].
  - intros X r c k HX _ _. cbn. rewrite (is_mat_nrow _ _ _ HX), (is_mat_ncol _ _ _ HX). split; [apply delta_mat|]. split; [reflexivity|]. split; [apply tabulate_wf|apply delta_mat].
  - intros X r c HX _. exact HX.
  - intros seed r c. split; [reflexivity|apply zeros_wf].
Qed.
(** 1 x 1 matrices *)
Lemma mat1_eq (A B : tensor Rnum) r c : is_mat A r c -> is_mat B r c -> (forall i j, (i < r)%nat -> (j < c)%nat -> el A i j = el B i j) -> A = B.
Proof. intros HA HB H. apply (mat_ext A B r c); auto. Qed.
Lemma LA1_valid S : is_mat S 1 1 -> svd_valid (svd LA1) S 1.
Proof.
  intros HS. unfold svd_valid. cbn [svd LA1]. rewrite (is_mat_nrow _ _ _ HS), (is_mat_ncol _ _ _ HS), delta_mid.
  assert (HI : is_mat (mid 1 : tensor Rnum) 1 1) by apply mdiag_mat.
  split; [exact HI|]. split; [reflexivity|]. split; [apply tabulate_wf|]. split; [exact HI|].
  assert (TI : mtrans (mid 1 : tensor Rnum) = mid 1).
  { apply (mat1_eq _ _ 1 1); [apply mtrans_mat; auto|exact HI|]. intros i j Hi Hj. rewrite (el_mtrans _ 1 1) by auto. assert (i = 0%nat) by lia. assert (j = 0%nat) by lia. subst. reflexivity. }
  assert (II : mmul (mid 1 : tensor Rnum) (mid 1) = mid 1) by (apply (mmul_id_r RL _ 1 1); auto).
  rewrite TI, II. split; [|auto].
  assert (HD : is_mat (mdiag 1 (fun i => at_ (tabulate [1%nat] (fun x => el S (nth 0 x 0%nat) (nth 0 x 0%nat))) [i]) : tensor Rnum) 1 1) by apply mdiag_mat.
  rewrite (mmul_id_r RL _ 1 1) by (eapply mmul_mat; eauto). rewrite (mmul_id_l RL _ 1 1) by auto.
  apply (mat1_eq _ _ 1 1); auto. intros i j Hi Hj. assert (i = 0%nat) by lia. assert (j = 0%nat) by lia. subst. rewrite el_mdiag by lia. reflexivity.
Qed.
Lemma LA1_cholesky : cholesky_works (cholesky LA1) (solve_tri LA1) 1.
Proof.
  intros S HS _ HP. assert (P : 0 < el S 0 0).
  { specialize (HP (fun _ => 1) ltac:(exists 0%nat; split; [lia|lra])). cbn [seq] in HP. rewrite !bs_cons in HP. change (bs [] ?g) with 0 in HP. lra. }
  assert (HL : is_mat (cholesky LA1 S) 1 1) by (apply LA1_tri_shaped; auto).
  assert (EL : el (cholesky LA1 S) 0 0 = sqrt (el S 0 0)).
  { cbn [cholesky LA1]. destruct HS as [HS _]. rewrite HS. unfold el at 1. rewrite at_tabulate by (apply inb2; lia). reflexivity. }
  assert (PL : 0 < el (cholesky LA1 S) 0 0) by (rewrite EL; apply sqrt_lt_R0; auto).
  assert (HT : is_mat (mtrans (cholesky LA1 S)) 1 1) by (apply mtrans_mat; auto).
  split.
  - split; [exact HL|]. apply (mat1_eq _ _ 1 1); auto; [eapply mmul_mat; eauto|]. intros i j Hi Hj. assert (i = 0%nat) by lia. assert (j = 0%nat) by lia. subst.
    rewrite (el_mmul _ _ 1 1 1) by auto. cbn [seq]. rewrite bs_cons. change (bs [] ?g) with 0. rewrite (el_mtrans _ 1 1) by auto. rewrite EL.
    rewrite Rplus_0_r. symmetry. apply sqrt_sqrt. lra.
  - set (L := cholesky LA1 S) in *. intros B q HB.
    assert (HX : is_mat (solve_tri LA1 B L true false true) q 1) by (apply LA1_tri_shaped; auto).
    assert (EX : forall M, is_mat M 1 1 -> el M 0 0 = el L 0 0 -> mmul (solve_tri LA1 B L true false true) M = B).
    { intros M HM EM. apply (mat1_eq _ _ q 1); auto; [eapply mmul_mat; eauto|]. intros i j Hi Hj. assert (j = 0%nat) by lia. subst.
      rewrite (el_mmul _ _ q 1 1) by auto. cbn [seq]. rewrite bs_cons. change (bs [] ?g) with 0. rewrite EM. rewrite Rplus_0_r.
      cbn [solve_tri LA1]. destruct HB as [HB _]. rewrite HB. unfold el at 1. rewrite at_tabulate by (apply inb2; lia).
      change (el B i 0 / el L 0 0 * el L 0 0 = el B i 0). field. lra. }
    split; (split; [exact HX|]).
    + apply EX; auto. apply (el_mtrans _ 1 1); auto.
    + change (solve_tri LA1 B L true false false) with (solve_tri LA1 B L true false true). apply EX; auto.
Qed.

Lemma inb_intro : forall ls x, length x = length ls -> (forall m, (m < length ls)%nat -> (nth m x 0 < nth m ls 0)%nat) -> inb ls x.
Proof.
  induction ls as [|l ls IH]; intros [|i x] HL H; try discriminate HL; [constructor|]. constructor; [apply (H 0%nat); cbn; lia|].
  apply IH; [injection HL; auto|]. intros m Hm. apply (H (S m)). cbn. lia.
Qed.
(** positive entries *)
Definition positive (V : tensor Rnum) : Prop := forall x, inb (lens V) x -> 0 < at_ V x.
Definition positive_factors (V : tensor Rnum) (W : list (tensor Rnum)) : Prop :=
  factors_ok V W 1 /\ forall m i, (m < order V)%nat -> (i < nth m (lens V) 0)%nat -> 0 < el (fac W m) i 0.
Lemma bs_pos {A} (l : list A) (g : A -> R) : l <> [] -> (forall x, In x l -> 0 < g x) -> 0 < bs l g.
Proof.
  intros Hn Hg. destruct l as [|x l]; [congruence|]. rewrite bs_cons. assert (0 <= bs l g) by (apply bigsum_nonneg; intros y Hy; left; apply Hg; right; auto).
  specialize (Hg x (or_introl eq_refl)). lra.
Qed.
Lemma bp_pos {A} (l : list A) (g : A -> R) : (forall x, In x l -> 0 < g x) -> 0 < bigprod (N:=Rnum) l g.
Proof.
  induction l as [|x l IH]; intros Hg; [change (bigprod (N:=Rnum) [] g) with 1; lra|]. rewrite bp_cons. apply Rmult_lt_0_compat; [apply Hg; left; auto|apply IH; intros; apply Hg; right; auto].
Qed.
Section Pos.
Context (V : tensor Rnum) (F : list (tensor Rnum)) (lambda : R).
Hypothesis HF : zero_mats V F 1.
Hypothesis HV : positive V.
Hypothesis Hl : 0 <= lambda.
Hypothesis H0 : forall n, (n < order V)%nat -> (0 < nth n (lens V) 0)%nat.
Lemma mttkrp_pos W n i : positive_factors V W -> (n < order V)%nat -> (i < nth n (lens V) 0)%nat -> 0 < mttkrp_at V W n i 0.
Proof.
  intros [_ HW] Hn Hi. unfold mttkrp_at. apply (bs_pos _ (fun x => at_ V x * bigprod (others n (order V)) (fun m => el (fac W m) (nth m x 0%nat) 0))).
  - set (x := map (fun m => if Nat.eqb m n then i else 0%nat) (seq 0 (order V))).
    assert (Hx : In x (filter (fun x => Nat.eqb (nth n x 0%nat) i) (all_idx (lens V)))).
    { apply filter_In. assert (Nx : forall m, (m < order V)%nat -> nth m x 0%nat = if Nat.eqb m n then i else 0%nat).
      { intros m Hm. unfold x. rewrite (nth_map_lt _ _ _ 0%nat) by (rewrite seq_length; auto). rewrite seq_nth by auto. reflexivity. }
      split; [apply all_idx_in|rewrite Nx by auto; rewrite Nat.eqb_refl; apply Nat.eqb_refl].
      apply inb_intro; [unfold x; rewrite map_length, seq_length; reflexivity|]. intros m Hm. change (length (lens V)) with (order V) in Hm. rewrite Nx by auto.
      destruct (Nat.eqb_spec m n) as [->|]; auto. }
    intros E. rewrite E in Hx. destruct Hx.
  - intros x Hx. apply filter_In in Hx as [Hx _]. apply all_idx_in in Hx. apply Rmult_lt_0_compat; [apply HV; auto|]. apply bp_pos. intros m Hm.
    apply others_in in Hm as [Hm _]. apply HW; auto. apply inb_nth; auto.
Qed.
Lemma lhs_pos W n : positive_factors V W -> (n < order V)%nat -> 0 < el (als_lhs (lambda : Rnum) W 1 n) 0 0.
Proof.
  intros [HW HP] Hn. rewrite el_lhs by lia. cbn [Nat.eqb].
  assert (0 < hgram_at W n 0 0); [|lra]. unfold hgram_at. apply bp_pos. intros m Hm. apply others_in in Hm as [Hm _].
  destruct HW as (_ & LW & HM). rewrite LW in Hm. unfold gram_at. rewrite (is_mat_nrow _ _ _ (HM m Hm)).
  apply bs_pos; [specialize (H0 m Hm); destruct (nth m (lens V) 0%nat); [lia|discriminate]|]. intros i Hi. apply in_seq in Hi. apply Rmult_lt_0_compat; apply HP; auto; lia.
Qed.
Lemma div_back (a b : R) : 0 < b -> a = (a * b + 0) / b.
Proof. intros H. field. lra. Qed.
Lemma pinv1 (M S : tensor Rnum) r i : is_mat M r 1 -> is_mat S 1 1 -> 0 < el S 0 0 -> (i < r)%nat -> el (pinv_solve (svd LA1) 1 M S) i 0 = el M i 0 / el S 0 0.
Proof.
  intros HM HS P Hi. destruct (pinv_solves RL LA1 LA1_svd_shaped M S r 1 HM HS) as [HX EX].
  { pose proof (LA1_valid S HS) as Hv. unfold svd_valid, svd_solvable in *. cbn [svd LA1] in *. split; [exact Hv|]. intros j Hj. assert (j = 0%nat) by lia. subst.
    change (el S 0 0 * (1 / el S 0 0) = 1). field. lra. }
  assert (E : el (mmul (pinv_solve (svd LA1) 1 M S) S) i 0 = el M i 0) by (rewrite EX; reflexivity).
  rewrite (el_mmul _ _ r 1 1) in E by auto. cbn [seq] in E. rewrite bs_cons in E. change (bs [] ?g) with 0 in E. rewrite <- E.
  apply div_back. exact P.
Qed.
Lemma upto_pos W : positive_factors V W -> forall n, (n <= order V)%nat -> positive_factors V (als_upto (pinv_solve (svd LA1) 1) (lambda : Rnum) V F 1 n W).
Proof.
  intros HP. induction n as [|n IH]; intros Hn; [exact HP|]. specialize (IH ltac:(lia)). rewrite upto_S. set (W' := als_upto (pinv_solve (svd LA1) 1) (lambda : Rnum) V F 1 n W) in *.
  assert (HW' : factors_ok V (als_update (pinv_solve (svd LA1) 1) (lambda : Rnum) V F 1 W' n) 1).
  { unfold W'. rewrite <- upto_S. apply (upto_factors RL LA1 V 1 LA1_svd_shaped); [apply HP|lia]. }
  split; [exact HW'|]. intros m i Hm Hi. unfold als_update.
  assert (LW : length W' = order V) by apply IH. rewrite fac_setf by lia. destruct (Nat.eqb_spec m n) as [->|]; [|apply IH; auto].
  assert (Er : als_rhs V F W' 1 n = mttkrp V W' n 1) by (unfold als_rhs; apply (madd_zero_r RL _ _ (nth n (lens V) 0%nat) 1); [apply mttkrp_mat|intros; apply HF; auto]).
  rewrite Er. rewrite (pinv1 _ _ (nth n (lens V) 0%nat)) by (auto using mttkrp_mat, lhs_mat, lhs_pos).
  apply Rmult_lt_0_compat; [|apply Rinv_0_lt_compat, lhs_pos; auto]. unfold el, mttkrp. rewrite at_tabulate by (apply inb2; auto). apply mttkrp_pos; auto.
Qed.
Lemma norm_pos W m : positive_factors V W -> (m < order V)%nat -> 0 < norm2 (fac W m).
Proof.
  intros [HW HP] Hm. assert (HM : is_mat (fac W m) (nth m (lens V) 0%nat) 1) by (apply HW; auto). rewrite norm2_sumsq by apply HM. apply sqrt_lt_R0. unfold sumsq.
  destruct HM as [HL _]. rewrite HL. assert (I : inb [nth m (lens V) 0%nat; 1%nat] [0%nat; 0%nat]) by (apply inb2; [apply H0; auto|lia]).
  apply (bs_pos _ (fun x => at_ (fac W m) x * at_ (fac W m) x)).
  - intros E. apply all_idx_in in I. rewrite E in I. destruct I.
  - intros x Hx. apply all_idx_in in Hx. apply inb2_inv in Hx as (i & j & -> & Hi & Hj). assert (j = 0%nat) by lia. subst. apply Rmult_lt_0_compat; apply HP; auto.
Qed.
Lemma rescaled_pos W : (1 <= order V)%nat -> positive_factors V W -> positive_factors V (rescaled W).
Proof.
  intros Ho HP. split; [apply (rescaled_factors LA1); apply HP|]. intros m i Hm Hi. assert (LW : length W = order V) by apply HP. unfold rescaled, fac.
  rewrite (nth_map_lt _ _ _ tnil) by lia. fold (fac W m). assert (HM : is_mat (fac W m) (nth m (lens V) 0%nat) 1) by (apply HP; auto).
  rewrite (el_mscal _ _ _ _ _ _ HM) by (auto; lia). apply Rmult_lt_0_compat; [|apply HP; auto].
  apply Rmult_lt_0_compat; [|apply Rinv_0_lt_compat, norm_pos; auto]. change (0 < Rroot (length W) (bigprod (N:=Rnum) W norm2)).
  assert (BP : 0 < bigprod (N:=Rnum) W norm2); [|unfold Rroot; destruct (Rlt_dec 0 (bigprod (N:=Rnum) W norm2)); [apply exp_pos|contradiction]].
  apply bp_pos. intros A HA. destruct (In_nth _ _ tnil HA) as (p & Hp & <-). apply (norm_pos W p); auto. lia.
Qed.
End Pos.

(** positive tensors and positive rank-1 starts meet the hypotheses *)
Lemma along_pos (V : tensor Rnum) F W (lambda : R) : zero_mats V F 1 -> positive V -> 0 <= lambda -> (1 <= order V)%nat ->
  (forall n, (n < order V)%nat -> (0 < nth n (lens V) 0)%nat) -> positive_factors V W ->
  svd_valid_along (svd LA1) lambda V F 1 W /\ svd_solvable_along (svd LA1) lambda V F 1 W /\ factors_stay_nonzero (svd LA1) lambda V F 1 W.
Proof.
  intros HF HV Hl Ho H0 HW.
  assert (K : forall k, positive_factors V (als_factors (svd LA1) lambda V F 1 W k)).
  { induction k as [|k IH]; [exact HW|]. change (positive_factors V (rescaled (als_sweep (pinv_solve (svd LA1) 1) (lambda : Rnum) V F 1 (als_factors (svd LA1) lambda V F 1 W k)))).
    apply rescaled_pos; auto. apply upto_pos; auto. }
  split; [|split].
  - intros k n Hn. apply LA1_valid. apply lhs_mat.
  - intros k n Hn. set (S := als_lhs (lambda : Rnum) (als_upto (pinv_solve (svd LA1) 1) (lambda : Rnum) V F 1 n (als_factors (svd LA1) lambda V F 1 W k)) 1 n).
    assert (HS : is_mat S 1 1) by apply lhs_mat. assert (P : 0 < el S 0 0) by (apply lhs_pos with (V:=V); auto; apply upto_pos; auto; lia).
    clearbody S. pose proof (LA1_valid S HS) as Hv. unfold svd_valid, svd_solvable in *. cbn [svd LA1] in *. split; [exact Hv|]. intros j Hj. assert (j = 0%nat) by lia. subst.
    change (el S 0 0 * (1 / el S 0 0) = 1). field. lra.
  - intros k m Hm. apply Rgt_not_eq. apply (norm_pos V H0); auto. apply upto_pos; auto.
Qed.
(** V(x) = 1 + x0 + x1 + x2 + x3 on {0,1}^4; all factors (1, 1); starting gradients that are not small *)
Definition eV : tensor Rnum := tabulate [2; 2; 2; 2]%nat (fun x => IZR (1 + Z.of_nat (list_sum x)) : Rnum).
Definition eA : tensor Rnum := tabulate [2; 1]%nat (fun _ => 1 : Rnum).
Definition eB : tensor Rnum := tabulate [2; 1]%nat (fun _ => 100 : Rnum).
Definition eZ : tensor Rnum := zeros [2; 1]%nat.
Definition eW : list (tensor Rnum) := repeat eA 4.
Definition eG : list (tensor Rnum) := repeat eB 4.
Definition eF : list (tensor Rnum) := repeat eZ 4.
Definition eClock (_ : nat) : R := 0.
Definition eX : io (N:=Rnum) := mkIo 0 (0 : Rnum) [].
Lemma rep4 {A} (a d : A) m : (m < 4)%nat -> nth m (repeat a 4) d = a.
Proof. intros H. do 4 (destruct m as [|m]; [reflexivity|]). lia. Qed.
Lemma eV_len n : (n < order eV)%nat -> nth n (lens eV) 0%nat = 2%nat.
Proof. intros H. apply (rep4 2%nat 0%nat n H). Qed.
Lemma e_mats (A : tensor Rnum) : is_mat A 2 1 -> mats_ok eV (repeat A 4) 1.
Proof. intros HA. split; [reflexivity|]. intros m Hm. unfold fac. rewrite (rep4 A tnil m Hm), eV_len by exact Hm. exact HA. Qed.
Lemma e_fac : factors_ok eV eW 1.
Proof. destruct (e_mats eA) as [H1 H2]; [split; [reflexivity|apply tabulate_wf]|]. split; [apply tabulate_wf|]. split; [exact H1|exact H2]. Qed.
Lemma e_zero : zero_mats eV eF 1.
Proof.
  intros m i j Hm Hi Hj. unfold eF, fac. rewrite (rep4 eZ tnil m Hm). rewrite eV_len in Hi by exact Hm. assert (j = 0%nat) by lia. subst.
  destruct i as [|[|i]]; [reflexivity|reflexivity|lia].
Qed.
Lemma e_pos : positive eV.
Proof. intros x Hx. unfold eV. rewrite at_tabulate by exact Hx. apply IZR_lt. lia. Qed.
Lemma e_pos_fac : positive_factors eV eW.
Proof.
  split; [exact e_fac|]. intros m i Hm Hi. unfold eW, fac. rewrite (rep4 eA tnil m Hm). rewrite eV_len in Hi by exact Hm. unfold el, eA.
  rewrite at_tabulate by (apply inb2; lia). lra.
Qed.
Lemma e_clock j : out_of_time (N:=Rnum) eClock (ck eX) 1 j = false.
Proof.
  assert (E : forall j, corrected_start (N:=Rnum) eClock 0 j = 0).
  { induction j0 as [|k IH]; [reflexivity|]. cbn [corrected_start]. change (corrected_start (N:=Rnum) eClock 0 k + (0 - 0) = 0). rewrite IH. lra. }
  unfold out_of_time. cbn [ck eX]. rewrite E. cbn. unfold eClock. destruct (Rltb_spec 1 (0 - 0)); [lra|reflexivity].
Qed.
Lemma e_objective (lambda : R) : objective (lambda : Rnum) eV eW 1 = 80 + lambda * 8.
Proof. cbv -[Rplus Rmult Rminus Ropp Rinv IZR Rdiv]. match goal with |- ?l = ?r => change (@eq R l r) end. ring. Qed.
Lemma e_grads : (10 < grad_norm eG).
Proof.
  replace 10 with (sqrt 100) by (replace 100 with (10 * 10) by lra; apply sqrt_square; lra).
  assert (E : grad_norm eG = sqrt (4 * (norm2 eB * norm2 eB))). { unfold grad_norm, eG. cbn [repeat]. change (@nsqrt Rnum) with sqrt. f_equal. set (b := norm2 eB). change (b * b + (b * b + (b * b + (b * b + 0))) = 4 * (b * b)). ring. }
  rewrite E. apply sqrt_lt_1_alt. split; [lra|]. assert (W : wf eB) by apply tabulate_wf. rewrite norm2_sumsq by exact W.
  assert (P : sumsq eB = 20000) by (cbv -[Rplus Rmult Rminus Ropp Rinv IZR Rdiv]; match goal with |- ?l = ?r => change (@eq R l r) end; ring).
  rewrite P, sqrt_sqrt by lra. lra.
Qed.
Lemma e_order : (order eV = 4)%nat.
Proof. reflexivity. Qed.
Lemma e_lenpos n : (n < order eV)%nat -> (0 < nth n (lens eV) 0)%nat.
Proof. intros H. rewrite eV_len by exact H. lia. Qed.
(** C69: no regularisation; the starting residual is sqrt 80 *)
Theorem C69_case :
  svd_shaped (svd LA1) /\ factors_ok eV eW 1 /\ mats_ok eV eF 1 /\ mats_ok eV eG 1 /\ zero_mats eV eF 1 /\
  svd_solvable_along (svd LA1) 0 eV eF 1 eW /\ factors_stay_nonzero (svd LA1) 0 eV eF 1 eW /\ resid_norm eV eW 1 = sqrt 80 /\
  exists ret st new es,
    alsCP_DT LA1 eClock true 5 eV eW eG eF (10 : Rnum) 1 50 (0 : Rnum) 10 false eX = Ok (ret, st) /\
    rows (dtio st) = new /\ map row_residual new = map Some es /\ nonincreasing es.
Proof.
  destruct (along_pos eV eF eW 0 e_zero e_pos ltac:(lra) ltac:(rewrite e_order; lia) e_lenpos e_pos_fac) as (_ & A2 & A3).
  assert (MF : mats_ok eV eF 1) by (apply e_mats; split; [reflexivity|apply zeros_wf]).
  assert (MG : mats_ok eV eG 1) by (apply e_mats; split; [reflexivity|apply tabulate_wf]).
  split; [exact LA1_svd_shaped|]. split; [exact e_fac|]. split; [exact MF|]. split; [exact MG|]. split; [exact e_zero|]. split; [exact A2|]. split; [exact A3|]. split.
  { rewrite (resid_norm_sqrt eV eW 1 e_fac). f_equal. rewrite <- objective_zero, e_objective. lra. }
  destruct (C69_run LA1 LA1_svd_shaped eClock true false eV 1 eW eG eF 10 1 0 50 10 5 eX ltac:(left; reflexivity) ltac:(rewrite e_order; lia) e_fac MF MG e_zero ltac:(lia) ltac:(lia) ltac:(lra) A2 A3)
    as (ret & st & new & E & ER & _ & H). destruct (H eq_refl eq_refl) as (es & H1 & H2). exists ret, st, new, es. auto.
Qed.
Print Assumptions C69_case.
(** C70: lambda = 1; the start is not accepted (gradient norm above 10), and 6000000 iterations are enough *)
Theorem C70_case :
  svd_valid_along (svd LA1) 1 eV eF 1 eW /\ factors_stay_nonzero (svd LA1) 1 eV eF 1 eW /\ 10 < grad_norm eG /\
  (forall j, out_of_time (N:=Rnum) eClock (ck eX) 1 j = false) /\
  trace_bound 1 (objective (1 : Rnum) eV eW 1) 1 (order eV) * objective (1 : Rnum) eV eW 1 < IZR (6000000 / 10) * (10 * 10) /\
  exists st, alsCP_DT LA1 eClock true 5 eV eW eG eF (10 : Rnum) 1 6000000 (1 : Rnum) 10 false eX = Ok (true, st) /\ dtpn st < 10 /\
    objective (1 : Rnum) eV (dtW st) 1 <= 88.
Proof.
  destruct (along_pos eV eF eW 1 e_zero e_pos ltac:(lra) ltac:(rewrite e_order; lia) e_lenpos e_pos_fac) as (A1 & _ & A3).
  assert (MF : mats_ok eV eF 1) by (apply e_mats; split; [reflexivity|apply zeros_wf]).
  assert (MG : mats_ok eV eG 1) by (apply e_mats; split; [reflexivity|apply tabulate_wf]).
  assert (B : trace_bound 1 (objective (1 : Rnum) eV eW 1) 1 (order eV) * objective (1 : Rnum) eV eW 1 < IZR (6000000 / 10) * (10 * 10)).
  { rewrite e_objective, e_order. unfold trace_bound. cbn [Nat.sub INR pow]. change (6000000 / 10)%Z with 600000%Z. lra. }
  split; [exact A1|]. split; [exact A3|]. split; [exact e_grads|]. split; [exact e_clock|]. split; [exact B|].
  destruct (C70_converges LA1 LA1_svd_shaped eClock true false eV 1 eW eG eF 10 1 1 6000000 10 5 eX ltac:(left; reflexivity) ltac:(rewrite e_order; lia) e_fac MF MG e_zero ltac:(lia) ltac:(lia) ltac:(lra) A1 A3 e_clock ltac:(lra) B)
    as (st & E & _ & H1 & H2). rewrite e_objective in H2. exists st. split; [exact E|]. split; [exact H1|]. lra.
Qed.
Print Assumptions C70_case.
(** C71: the multi-sweep method *)
Theorem C71_case :
  tri_shaped (cholesky LA1) (solve_tri LA1) /\ low_shaped (svd LA1) (qr_q LA1) (rnd LA1) /\ cholesky_works (cholesky LA1) (solve_tri LA1) 1 /\
  method_ok MultiSweep (order eV) 2 1 /\ lens eV = repeat 2%nat (order eV) /\ factors_ok eV eW 1 /\ mats_ok eV eG 1 /\ 10 < grad_norm eG /\
  2 * trace_bound 1 (objective (1 : Rnum) eV eW 1) 1 (order eV) * objective (1 : Rnum) eV eW 1 < IZR (13000000 / 10 - 1) * (10 * 10) /\
  exists W' G' gn rows,
    cpd_run LA1 eClock true MultiSweep (2 * (Z.to_nat 13000000 + 1)) (order eV) 2 1 eV eW eG (1 : Rnum) (10 : Rnum) (1 : Rnum) 13000000 10 false eX = Ok (true, (W', G'), gn, rows) /\
    gn = grad_norm G' /\ gn < 10 /\ objective (1 : Rnum) eV W' 1 <= 88.
Proof.
  assert (MG : mats_ok eV eG 1) by (apply e_mats; split; [reflexivity|apply tabulate_wf]).
  assert (B : 2 * trace_bound 1 (objective (1 : Rnum) eV eW 1) 1 (order eV) * objective (1 : Rnum) eV eW 1 < IZR (13000000 / 10 - 1) * (10 * 10)).
  { rewrite e_objective, e_order. unfold trace_bound. cbn [Nat.sub INR pow]. change (13000000 / 10 - 1)%Z with 1299999%Z. lra. }
  assert (O : method_ok MultiSweep (order eV) 2 1) by (cbn; lia).
  split; [exact LA1_tri_shaped|]. split; [exact LA1_low_shaped|]. split; [exact LA1_cholesky|]. split; [exact O|]. split; [reflexivity|]. split; [exact e_fac|]. split; [exact MG|].
  split; [exact e_grads|]. split; [exact B|].
  destruct (C71_converges LA1 1 LA1_tri_shaped LA1_low_shaped LA1_cholesky eClock true false eV 2 eW eG 1 10 1 MultiSweep (2 * (Z.to_nat 13000000 + 1)) 13000000 10 eX
    ltac:(right; right; reflexivity) O eq_refl ltac:(lia) e_fac MG ltac:(lia) ltac:(lia) (le_n _) ltac:(lra) ltac:(lra) e_clock B)
    as (W' & G' & gn & rws & E & H1 & H2 & H3). rewrite e_objective in H3. exists W', G', gn, rws. split; [exact E|]. split; [exact H1|]. split; [exact H2|]. lra.
Qed.
Print Assumptions C71_case.
