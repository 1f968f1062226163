(** The steps of CPD::als: objective and gradients of two consecutive steps *)
From Coq Require Import List ZArith QArith Qround Lia Bool Arith Reals Lra Permutation.
From Verif Require Import Base Num NumR Tensor Spec Spec3 Spec4 Spec10 Spec11 Spec18 Spec19 MCommon MCPD PBase PTensor PSum PMttkrp PMat PMatAlg PResid PGrad PRank PALS PMono PMono2 POptStep PCPD PCPD2 PDrivers2 PTuckMono PConv PConv2 PConv3 PConv4.
From Verif Require POptEval PropMono2.
Import ListNotations.
Local Close Scope Q_scope.
Local Open Scope R_scope.
Local Notation RL := Rnum_ring.
Local Notation bs := (bigsum (N:=Rnum)).

Lemma bs_sq_pos k (u : nat -> R) : (exists i, (i < k)%nat /\ u i <> 0) -> 0 < bs (seq 0 k) (fun l => u l * u l).
Proof.
  intros (i & Hi & Hu). assert (Hin : In i (seq 0 k)) by (apply in_seq; lia). apply in_split in Hin. destruct Hin as (a & b & E).
  rewrite E, (bigsum_perm RL _ (i :: a ++ b)) by (apply Permutation_sym, Permutation_middle). rewrite bs_cons.
  assert (0 <= bs (a ++ b) (fun l => u l * u l)) by (apply bigsum_nonneg; intros; apply Rle_0_sqr).
  assert (0 < u i * u i) by (apply Rsqr_pos_lt; auto). lra.
Qed.
Lemma lhs_posdef (V : tensor Rnum) W rk n (lambda : R) : factors_ok V W rk -> (n < order V)%nat -> (0 < nth n (lens V) 0)%nat -> 0 < lambda ->
  positive_definite (als_lhs (lambda : Rnum) W rk n) rk.
Proof.
  intros HW Hn H0 Hl u Hu. eapply Rlt_le_trans; [|apply (lhs_definite V W rk n lambda u HW Hn H0)]. apply Rmult_lt_0_compat; auto. apply bs_sq_pos. exact Hu.
Qed.
Lemma chol_solved (LA : lapack Rnum) (V : tensor Rnum) W rk n (lambda : R) : cholesky_works (cholesky LA) (solve_tri LA) rk ->
  factors_ok V W rk -> (n < order V)%nat -> (0 < nth n (lens V) 0)%nat -> 0 < lambda ->
  solved V rk lambda (chol_solve (cholesky LA) (solve_tri LA)) W n.
Proof.
  intros Hc HW Hn H0 Hl. apply (chol_solves RL).
  - apply Hc; [apply lhs_mat|apply lhs_sym|eapply lhs_posdef; eauto].
  - apply mttkrp_mat.
Qed.

(** the modes visited by step k *)
Definition method_modes (m : cpd_method) (o k : nat) : list nat :=
  match m with
  | Simple => seq 0 o
  | TwoSubtree => dt_half o k
  | MultiSweep => after o (o - 1 - k mod o)
  | TwoSubtreeLR _ _ | MultiSweepLR _ _ => []
  end.
Definition exact_method (m : cpd_method) : Prop := match m with TwoSubtreeLR _ _ | MultiSweepLR _ _ => False | _ => True end.
Lemma method_state_S (LA : lapack Rnum) m lambda V rk W G k : exact_method m ->
  method_state m LA lambda V rk W G (S k) = ls_modes (chol_solve (cholesky LA) (solve_tri LA)) lambda V rk (method_modes m (order V) k) (method_state m LA lambda V rk W G k).
Proof.
  intros Hm. destruct m; cbn [exact_method] in Hm; try tauto; cbn [method_state method_modes].
  1: unfold dt_schedule. 2: unfold ms_schedule.
  all: rewrite seq_S, flat_map_app; cbn [flat_map plus]; rewrite app_nil_r; apply ls_modes_app.
Qed.
Lemma modes_in m o k n : (2 <= o)%nat -> exact_method m -> In n (method_modes m o k) -> (n < o)%nat.
Proof.
  intros Ho Hm Hn. destruct m; cbn [exact_method method_modes] in *; try tauto.
  - eapply PropMono2.half_in; eauto.
  - eapply PropMono2.after_in; [|exact Hn]. lia.
  - apply in_seq in Hn. lia.
Qed.
(** two consecutive steps visit every mode *)
Lemma two_steps m o k n : (2 <= o)%nat -> exact_method m -> (n < o)%nat -> In n (method_modes m o k ++ method_modes m o (S k)).
Proof.
  intros Ho Hm Hn. apply in_or_app. destruct m; cbn [exact_method method_modes] in *; try tauto.
  - unfold dt_half. rewrite Nat.even_succ, <- Nat.negb_even. destruct (Nat.even k); cbn [negb]; rewrite in_seq; cbn [In];
    destruct (Nat.eq_dec n (o - 1)); [right; left; lia|left; lia|left; left; lia|right; lia].
  - rewrite !POptEval.after_in by lia. destruct (Nat.eq_dec n (o - 1 - k mod o)) as [E|]; [right|left; auto]. split; auto.
    rewrite E. pose proof (Nat.mod_upper_bound k o ltac:(lia)). pose proof (Nat.mod_upper_bound (S k) o ltac:(lia)).
    intros E'. assert (E2 : (k mod o = S k mod o)%nat) by lia. clear - E2 Ho.
    pose proof (Nat.div_mod k o ltac:(lia)) as A. pose proof (Nat.div_mod (S k) o ltac:(lia)) as B. rewrite E2 in A. 
    assert (C : (o * (S k / o) = o * (k / o) + 1)%nat) by lia. clear - C Ho. 
    assert (D : (o * (S k / o - k / o) = 1)%nat) by (rewrite Nat.mul_sub_distr_l; lia). apply Nat.eq_mul_1 in D. lia.
  - left. apply in_seq. lia.
Qed.
Section CPD.
Context (LA : lapack Rnum) (V : tensor Rnum) (W G : list (tensor Rnum)) (rk : nat) (lambda : R) (m : cpd_method).
Hypothesis Hc : cholesky_works (cholesky LA) (solve_tri LA) rk.
Hypothesis H2 : (2 <= order V)%nat.
Hypothesis HV : forall n, (n < order V)%nat -> (0 < nth n (lens V) 0)%nat.
Hypothesis HW : factors_ok V W rk.
Hypothesis HG : mats_ok V G rk.
Hypothesis Hl : 0 < lambda.
Hypothesis Hm : exact_method m.
Let solve := chol_solve (cholesky LA) (solve_tri LA).
Let st k := method_state m LA (lambda : Rnum) V rk W G k.
Let f k := objective (lambda : Rnum) V (fst (st k)) rk.
Let c := objective (lambda : Rnum) V W rk.
Lemma sol modes s : (forall n, In n modes -> (n < order V)%nat) -> solved_along V rk lambda solve modes s.
Proof.
  intros Hi a n b E W' HW'. assert (Hn : (n < order V)%nat) by (apply Hi; rewrite E; apply in_or_app; right; left; auto).
  apply chol_solved; auto.
Qed.
Lemma bound_B W' : factors_ok V W' rk -> objective (lambda : Rnum) V W' rk <= c -> forall n, (n < order V)%nat -> fro2 (fac W' n) <= c / lambda.
Proof.
  intros HW' Hc' n Hn. eapply Rle_trans; [apply (factor_bound lambda V W' rk n Hl); destruct HW' as (_ & -> & _); exact Hn|].
  apply Rmult_le_compat_r; [left; apply Rinv_0_lt_compat; auto|exact Hc'].
Qed.
Lemma c_pos : 0 <= c / lambda.
Proof. apply Rmult_le_pos; [apply objective_nonneg; left; auto|left; apply Rinv_0_lt_compat; auto]. Qed.
Lemma st_0 : st 0 = (W, G).
Proof. unfold st, method_state. destruct m; try reflexivity; destruct Hm. Qed.
Lemma st_ok k : factors_ok V (fst (st k)) rk /\ mats_ok V (snd (st k)) rk /\ f k <= c.
Proof.
  induction k as [|k (A & B & C)]; [unfold f; rewrite st_0; split; [exact HW|split; [exact HG|apply Rle_refl]]|].
  unfold f, st in *. rewrite method_state_S by exact Hm. fold solve. destruct (method_state m LA (lambda : Rnum) V rk W G k) as [W1 G1]. cbn [fst snd] in *.
  assert (Hi : forall n, In n (method_modes m (order V) k) -> (n < order V)%nat) by (intros n; apply modes_in; auto).
  destruct (modes_decrease V rk lambda c (c / lambda) solve H2 (Rlt_le _ _ Hl) c_pos bound_B (method_modes m (order V) k) W1 G1 A B C Hi (sol _ _ Hi)) as (D1 & D2 & D3 & _).
  split; [exact D1|]. split; [exact D2|]. eapply Rle_trans; [exact D3|exact C].
Qed.
Lemma window k : f (k + 2)%nat <= f k /\ f (S k) <= f k /\
  grad_norm (snd (st (k + 2)%nat)) * grad_norm (snd (st (k + 2)%nat)) <= trace_bound lambda c rk (order V) * (f k - f (k + 2)%nat).
Proof.
  destruct (st_ok k) as (A & B & C). pose proof (st_ok (k + 2)) as (_ & B2 & _). revert B2.
  replace (k + 2)%nat with (S (S k)) by lia. unfold f, st in *. rewrite !(method_state_S LA m (lambda : Rnum) V rk W G) by exact Hm. rewrite <- ls_modes_app. fold solve.
  destruct (method_state m LA (lambda : Rnum) V rk W G k) as [W1 G1]. cbn [fst snd] in *. intros B2.
  assert (Hi : forall n, In n (method_modes m (order V) k) -> (n < order V)%nat) by (intros n; apply modes_in; auto).
  assert (Hi2 : forall n, In n (method_modes m (order V) k ++ method_modes m (order V) (S k)) -> (n < order V)%nat) by (intros n Hn; apply in_app_or in Hn; destruct Hn as [Hn|Hn]; eapply modes_in; eauto).
  destruct (modes_decrease V rk lambda c (c / lambda) solve H2 (Rlt_le _ _ Hl) c_pos bound_B _ W1 G1 A B C Hi (sol _ _ Hi)) as (_ & _ & D3 & _).
  destruct (modes_decrease V rk lambda c (c / lambda) solve H2 (Rlt_le _ _ Hl) c_pos bound_B _ W1 G1 A B C Hi2 (sol _ _ Hi2)) as (_ & _ & E3 & E4).
  split; [exact E3|]. split; [exact D3|]. rewrite (grad_norm_sq V _ rk B2). apply E4; [apply seq_NoDup|].
  intros n Hn. apply in_seq in Hn. apply two_steps; auto; lia.
Qed.
Lemma cpd_mono : forall i j, (i <= j)%nat -> f j <= f i.
Proof. intros i j H. induction H as [|j H IH]; [apply Rle_refl|]. eapply Rle_trans; [apply window|exact IH]. Qed.
End CPD.
