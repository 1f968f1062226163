(** The sweeps of alsCP_DT: objective and gradients; a regularised system matrix is invertible *)
From Coq Require Import List ZArith QArith Qround Lia Bool Arith Reals Lra Permutation.
From Verif Require Import Base Num NumR Tensor Spec Spec3 Spec4 Spec10 Spec11 Spec18 Spec19 MCommon PBase PTensor PSum PMttkrp PMat PMatAlg PResid PGrad PRank PNormalize PALS PMono PMono2 PPPDriver PCPD PDrivers2 PTuckMono PConv PConv2 PConv3.
Import ListNotations.
Local Close Scope Q_scope.
Local Open Scope R_scope.
Local Notation RL := Rnum_ring.
Local Notation bs := (bigsum (N:=Rnum)).

Lemma gram_psd {Y} (ys : list Y) (a : Y -> nat -> R) (S : nat -> nat -> R) (rk : nat) (u : nat -> R) :
  (forall r l, (r < rk)%nat -> (l < rk)%nat -> S r l = bs ys (fun y => a y r * a y l)) ->
  0 <= bs (seq 0 rk) (fun l => bs (seq 0 rk) (fun r => u r * S r l) * u l).
Proof.
  intros HS. set (b := fun y => bs (seq 0 rk) (fun r => u r * a y r)).
  assert (E : forall l, (l < rk)%nat -> bs (seq 0 rk) (fun r => u r * S r l) = bs ys (fun y => b y * a y l)).
  { intros l Hl. transitivity (bs (seq 0 rk) (fun r => bs ys (fun y => u r * (a y r * a y l)))).
    - apply bs_ext. intros r Hr. apply in_seq in Hr. rewrite HS by lia. symmetry. apply bs_mul_l.
    - rewrite (bigsum_swap RL). apply bs_ext. intros y _. change (b y * a y l) with (bs (seq 0 rk) (fun r => u r * a y r) * a y l). rewrite <- bs_mul_r. apply bs_ext. intros r _. ring. }
  replace (bs (seq 0 rk) (fun l => bs (seq 0 rk) (fun r => u r * S r l) * u l)) with (bs ys (fun y => b y * b y)).
  { apply bigsum_nonneg. intros; apply Rle_0_sqr. }
  symmetry. transitivity (bs (seq 0 rk) (fun l => bs ys (fun y => b y * a y l * u l))).
  - apply bs_ext. intros l Hl. apply in_seq in Hl. rewrite E by lia. symmetry. apply bs_mul_r.
  - rewrite (bigsum_swap RL). apply bs_ext. intros y _. change (b y * b y) with (b y * bs (seq 0 rk) (fun r => u r * a y r)). rewrite <- bs_mul_l. apply bs_ext. intros l _. ring.
Qed.
(** lambda > 0: u S u >= lambda |u|^2 *)
Lemma lhs_definite (V : tensor Rnum) W rk n (lambda : R) (u : nat -> R) : factors_ok V W rk -> (n < order V)%nat -> (0 < nth n (lens V) 0)%nat ->
  lambda * bs (seq 0 rk) (fun l => u l * u l) <= bs (seq 0 rk) (fun l => bs (seq 0 rk) (fun r => u r * el (als_lhs (lambda : Rnum) W rk n) r l) * u l).
Proof.
  intros HW Hn H0.
  pose proof (gram_psd (lhs_ys V rk n) (lhs_vec W n 0) (fun r l => el (als_lhs (0 : Rnum) W rk n) r l) rk u
    (fun r l Hr Hc => lhs_gram V W rk n 0 HW Hn (Rle_refl 0) r l H0 Hr Hc)) as P. cbv beta in P.
  apply Rle_trans with (bs (seq 0 rk) (fun l => bs (seq 0 rk) (fun r => u r * el (als_lhs (0 : Rnum) W rk n) r l) * u l) + lambda * bs (seq 0 rk) (fun l => u l * u l)); [lra|].
  apply Req_le. rewrite <- bs_mul_l.
  transitivity (bs (seq 0 rk) (fun l => bs (seq 0 rk) (fun r => u r * el (als_lhs (0 : Rnum) W rk n) r l) * u l + lambda * (u l * u l))).
  { symmetry. apply (bigsum_add RL). }
  apply bs_ext. intros l Hl. apply in_seq in Hl.
  assert (E : bs (seq 0 rk) (fun r => u r * el (als_lhs (lambda : Rnum) W rk n) r l) = bs (seq 0 rk) (fun r => u r * el (als_lhs (0 : Rnum) W rk n) r l) + lambda * u l).
  { transitivity (bs (seq 0 rk) (fun r => u r * el (als_lhs (0 : Rnum) W rk n) r l + (if Nat.eqb r l then lambda * u r else 0))).
    - apply bs_ext. intros r Hr. apply in_seq in Hr. rewrite !el_lhs by lia. destruct (Nat.eqb r l); rring.
    - pose proof (bigsum_add RL (seq 0 rk) (fun r => u r * el (als_lhs (0 : Rnum) W rk n) r l) (fun r => if Nat.eqb r l then lambda * u r else 0)) as A.
      etransitivity; [exact A|]. pose proof (PResid.bigsum_delta RL l rk (fun r => lambda * u r) ltac:(lia)) as D. cbv beta in D.
      change (bs (seq 0 rk) (fun r => if Nat.eqb r l then lambda * u r else 0) = lambda * u l) in D. rewrite D. reflexivity. }
  rewrite E. ring.
Qed.
Lemma valid_solvable svd (V : tensor Rnum) W rk n (lambda : R) : factors_ok V W rk -> (n < order V)%nat -> (0 < nth n (lens V) 0)%nat -> 0 < lambda ->
  svd_valid svd (als_lhs (lambda : Rnum) W rk n) rk -> svd_solvable svd (als_lhs (lambda : Rnum) W rk n) rk.
Proof.
  intros HW Hn H0 Hl. unfold svd_valid, svd_solvable. set (S := als_lhs (lambda : Rnum) W rk n). assert (HS : is_mat S rk rk) by apply lhs_mat.
  destruct (svd S rk) as [[U s] VT]. intros Hv. split; [exact Hv|]. destruct Hv as (HU & _ & _ & HV & ES & _ & _ & EV & _).
  assert (HD : is_mat (mdiag rk (fun i => at_ s [i]) : tensor Rnum) rk rk) by apply mdiag_mat.
  assert (HVt : is_mat (mtrans VT) rk rk) by (apply mtrans_mat; auto).
  assert (HUD : is_mat (mmul U (mdiag rk (fun i => at_ s [i]))) rk rk) by (eapply mmul_mat; eauto).
  assert (E : mmul S (mtrans VT) = mmul U (mdiag rk (fun i => at_ s [i]))).
  { rewrite ES. rewrite (mmul_assoc RL _ VT (mtrans VT) rk rk rk rk) by auto. rewrite EV. apply (mmul_id_r RL _ rk rk). auto. }
  intros i Hi. change (at_ s [i] * (1 / at_ s [i]) = 1). assert (NZ : at_ s [i] <> 0); [|field; exact NZ]. intros Z.
  (* the column i of VT^T is in the kernel of S *)
  assert (K : forall r, (r < rk)%nat -> bs (seq 0 rk) (fun l => el VT i l * el S l r) = 0).
  { intros r Hr. transitivity (el (mmul S (mtrans VT)) r i).
    - rewrite (el_mmul S _ rk rk rk) by auto. apply bs_ext. intros l Hc. apply in_seq in Hc. rewrite (el_mtrans VT rk rk) by (auto; lia).
      pose proof (lhs_sym W rk n lambda) as SY. fold S in SY. rewrite (SY l r) by lia. apply Rmult_comm.
    - rewrite E. rewrite (el_mmul U _ rk rk rk) by auto. apply (bigsum_zero RL). intros l Hc. apply in_seq in Hc. rewrite el_mdiag by lia.
      destruct (Nat.eqb_spec l i) as [->|]; [rewrite Z|]; apply Rmult_0_r. }
  pose proof (lhs_definite V W rk n lambda (fun l => el VT i l) HW Hn H0) as P. cbv beta in P. fold S in P.
  assert (Q : bs (seq 0 rk) (fun l => bs (seq 0 rk) (fun r => el VT i r * el S r l) * el VT i l) = 0).
  { apply (bigsum_zero RL). intros l Hc. apply in_seq in Hc. rewrite K by lia. apply Rmult_0_l. }
  rewrite Q in P. assert (O : bs (seq 0 rk) (fun l => el VT i l * el VT i l) = 1).
  { transitivity (el (mmul VT (mtrans VT)) i i).
    - rewrite (el_mmul VT _ rk rk rk) by auto. apply bs_ext. intros l Hc. apply in_seq in Hc. rewrite (el_mtrans VT rk rk) by (auto; lia). reflexivity.
    - rewrite EV. unfold mid. rewrite el_mdiag by auto. rewrite Nat.eqb_refl. reflexivity. }
  rewrite O in P. lra.
Qed.

Lemma resid_norm_sqrt (V : tensor Rnum) W rk : factors_ok V W rk -> resid_norm V W rk = sqrt (residual2 V W rk).
Proof.
  intros HW. unfold resid_norm. rewrite norm2_sumsq by apply tabulate_wf. f_equal. unfold sumsq, residual2, msub. cbn [tabulate lens].
  apply bs_ext. intros x Hx. apply all_idx_in in Hx. rewrite at_tabulate by auto. unfold cp_full. rewrite at_tabulate; [reflexivity|].
  replace (map nrow W) with (lens V); auto. destruct HW as (_ & HL & HM). apply nth_ext with (d:=0%nat) (d':=0%nat); [rewrite map_length; auto|].
  intros n Hn. rewrite (nth_map_lt _ _ _ tnil) by (rewrite HL; auto). symmetry. apply (is_mat_nrow _ _ rk). apply HM. auto.
Qed.

Lemma seq_cut : forall m s a n b, seq s m = a ++ n :: b -> a = seq s (n - s) /\ (s <= n < s + m)%nat.
Proof.
  induction m as [|m IH]; intros s a n b E; [destruct a; discriminate E|]. cbn [seq] in E. destruct a as [|x a]; cbn [app] in E.
  - assert (n = s) by congruence. subst. rewrite Nat.sub_diag. split; [reflexivity|lia].
  - assert (x = s) by congruence. assert (E' : seq (S s) m = a ++ n :: b) by congruence. subst. destruct (IH _ _ _ _ E') as [-> H]. split; [|lia].
    replace (n - s)%nat with (S (n - S s)) by lia. reflexivity.
Qed.
Lemma seq_cut0 m a n b : seq 0 m = a ++ n :: b -> a = seq 0 n /\ (n < m)%nat.
Proof. intros E. destruct (seq_cut _ _ _ _ _ E) as [-> H]. rewrite Nat.sub_0_r. split; [reflexivity|lia]. Qed.

Section DT.
Context (LA : lapack Rnum) (V : tensor Rnum) (F W : list (tensor Rnum)) (rk : nat) (lambda : R).
Hypothesis Hsh : svd_shaped (svd LA).
Hypothesis H2 : (2 <= order V)%nat.
Hypothesis HW : factors_ok V W rk.
Hypothesis HF : zero_mats V F rk.
Hypothesis Hl : 0 <= lambda.
Hypothesis Hs : svd_solvable_along (svd LA) lambda V F rk W.
Hypothesis Hz : factors_stay_nonzero (svd LA) lambda V F rk W.
Let solve := pinv_solve (svd LA) rk.
Let Wf := als_factors (svd LA) lambda V F rk W.
Let f k := objective (lambda : Rnum) V (Wf k) rk.
Lemma Wf_S k : Wf (S k) = rescaled (als_sweep solve (lambda : Rnum) V F rk (Wf k)).
Proof. reflexivity. Qed.
Lemma Wf_fac k : factors_ok V (Wf k) rk.
Proof. induction k as [|k IH]; [exact HW|]. rewrite Wf_S. apply (rescaled_factors LA). apply (sweep_factors RL LA V rk Hsh). exact IH. Qed.
Lemma sweep_decrease c B k : 0 <= B -> f k <= c ->
  (forall W, factors_ok V W rk -> objective (lambda : Rnum) V W rk <= c -> forall m, (m < order V)%nat -> fro2 (fac W m) <= B) ->
  f (S k) <= f k /\
  grad_norm (als_grads solve (lambda : Rnum) V F rk (Wf k)) * grad_norm (als_grads solve (lambda : Rnum) V F rk (Wf k))
    <= (INR rk * lambda + B ^ (order V - 1)) * (f k - f (S k)).
Proof.
  intros HB Hc SB. set (G := als_grads solve (lambda : Rnum) V F rk (Wf k)).
  assert (HG : mats_ok V G rk) by (apply (als_grads_mats RL LA V rk Hsh); apply Wf_fac).
  assert (LG : length G = order V) by apply HG.
  pose proof (sweep_is_modes V F (Wf k) G rk lambda solve HF LG) as SM. cbv zeta in SM.
  assert (SA : solved_along V rk lambda solve (seq 0 (order V)) (Wf k, G)).
  { intros a n b E W' HW'. assert (Ea : a = seq 0 n /\ (n < order V)%nat).
    { eapply seq_cut0. exact E. }
    destruct Ea as [-> Hn]. destruct (SM n ltac:(lia)) as (E1 & _). unfold W' in *. rewrite E1 in *. clear W'. unfold solved. apply (pinv_solves RL LA Hsh).
    - apply mttkrp_mat.
    - apply lhs_mat.
    - apply Hs. exact Hn. }
  destruct (modes_decrease V rk lambda c B solve H2 Hl HB SB (seq 0 (order V)) (Wf k) G (Wf_fac k) HG Hc ltac:(intros n Hn; apply in_seq in Hn; lia) SA) as (A1 & A2 & A3 & A4).
  destruct (SM (order V) (le_n _)) as (E1 & E2 & E3). fold (als_sweep solve (lambda : Rnum) V F rk (Wf k)) in E1. rewrite E1 in *. clear E1.
  assert (R1 : f (S k) <= objective (lambda : Rnum) V (als_sweep solve (lambda : Rnum) V F rk (Wf k)) rk).
  { unfold f. rewrite Wf_S. apply rescaled_objective; [exact Hl|apply (sweep_factors RL LA V rk Hsh); apply Wf_fac|lia|intros m Hm; apply Hz; exact Hm]. }
  split; [eapply Rle_trans; [exact R1|exact A3]|].
  rewrite (grad_norm_sq V G rk HG).
  assert (E4 : bs (seq 0 (order V)) (fun m => fro2 (fac G m)) = bs (seq 0 (order V)) (fun m => fro2 (fac (snd (ls_modes solve (lambda : Rnum) V rk (seq 0 (order V)) (Wf k, G))) m))).
  { apply bs_ext. intros m Hm. apply in_seq in Hm. rewrite E3 by lia. reflexivity. }
  rewrite E4. eapply Rle_trans; [apply A4; [apply seq_NoDup|apply incl_refl]|]. apply Rmult_le_compat_l.
  - apply (T_pos V rk lambda B); auto.
  - unfold f in *. fold solve. cbn in *. lra.
Qed.
Lemma f_mono : forall i j, (i <= j)%nat -> f j <= f i.
Proof.
  intros i j H. induction H as [|j H IH]; [apply Rle_refl|]. eapply Rle_trans; [|exact IH]. 
  destruct (Req_dec 0 0) as [_|]; [|lra].
  (* boundedness is not needed for this part *)
  set (G := als_grads solve (lambda : Rnum) V F rk (Wf j)).
  unfold f. rewrite Wf_S. eapply Rle_trans; [apply rescaled_objective; [exact Hl| |lia|intros m Hm; apply Hz; exact Hm]|].
  { apply (sweep_factors RL LA V rk Hsh). apply Wf_fac. }
  assert (K : forall n, (n <= order V)%nat -> objective (lambda : Rnum) V (als_upto solve (lambda : Rnum) V F rk n (Wf j)) rk <= objective (lambda : Rnum) V (Wf j) rk).
  { induction n as [|n IHn]; intros Hn; [apply Rle_refl|]. eapply Rle_trans; [|apply IHn; lia]. unfold solve. rewrite upto_S. fold solve.
    assert (HU : factors_ok V (als_upto solve (lambda : Rnum) V F rk n (Wf j)) rk) by (apply (upto_factors RL LA V rk Hsh); [apply Wf_fac|lia]).
    unfold als_update. assert (Er : als_rhs V F (als_upto solve (lambda : Rnum) V F rk n (Wf j)) rk n = mttkrp V (als_upto solve (lambda : Rnum) V F rk n (Wf j)) n rk).
    { unfold als_rhs. apply (madd_zero_r RL _ _ (nth n (lens V) 0%nat) rk); [apply mttkrp_mat|]. intros; apply HF; auto. }
    rewrite Er. destruct (pinv_solves RL LA Hsh (mttkrp V (als_upto solve (lambda : Rnum) V F rk n (Wf j)) n rk) (als_lhs (lambda : Rnum) (als_upto solve (lambda : Rnum) V F rk n (Wf j)) rk n) (nth n (lens V) 0%nat) rk) as [HX EX].
    - apply mttkrp_mat.
    - apply lhs_mat.
    - apply Hs. lia.
    - apply (update_decrease V _ rk n lambda _ HU ltac:(lia) Hl HX EX). }
  apply (K (order V) (le_n _)).
Qed.
End DT.
