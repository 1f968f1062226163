(** Low-rank updates of one factor: what they leave, and their optimality *)
From Coq Require Import List ZArith Lia Bool Arith Permutation Ring.
From Verif Require Import Base Num Tensor Spec Spec3 Spec10 MCommon PBase PTensor PSum PMttkrp PMat PMatAlg PResid PGrad.
Import ListNotations.

Section P.
Context {N : num} (RL : ring_laws N).
Let RT : ring_theory (@n0 N) n1 nadd nmul nsub nopp (@eq N) := RL.
Add Ring Nring : RT.
Local Open Scope num_scope.
Implicit Types A B C D G L M X : tensor N.

Lemma minner_sym r k A B : minner r k A B = minner r k B A.
Proof. unfold minner. apply bigsum_ext. intros i _. apply bigsum_ext. intros j _. ring. Qed.
Lemma minner_add r k A B C : is_mat A r k -> minner r k (madd A B) C = minner r k A C + minner r k B C.
Proof.
  intros HA. unfold minner. rewrite <- (bigsum_add RL). apply bigsum_ext. intros i Hi. apply in_seq in Hi.
  rewrite <- (bigsum_add RL). apply bigsum_ext. intros j Hj. apply in_seq in Hj. rewrite (el_madd _ _ r k) by (auto; lia). ring.
Qed.
Lemma minner_sub r k A B C : is_mat A r k -> minner r k (msub A B) C = minner r k A C - minner r k B C.
Proof.
  intros HA. unfold minner. rewrite <- (bigsum_sub RL). apply bigsum_ext. intros i Hi. apply in_seq in Hi.
  rewrite <- (bigsum_sub RL). apply bigsum_ext. intros j Hj. apply in_seq in Hj. rewrite (el_msub _ _ r k) by (auto; lia). ring.
Qed.
Lemma minner_mul r k c A B C : is_mat A r k -> is_mat B k c -> is_mat C r c ->
  minner r c (mmul A B) C = minner r k A (mmul C (mtrans B)).
Proof.
  intros HA HB HC. unfold minner. apply bigsum_ext. intros i Hi. apply in_seq in Hi.
  transitivity (bigsum (seq 0 c) (fun j => bigsum (seq 0 k) (fun x => el A i x * el B x j * el C i j))).
  - apply bigsum_ext. intros j Hj. apply in_seq in Hj. rewrite (el_mmul A B r k c) by (auto; lia). rewrite (bigsum_mul_r RL). auto.
  - rewrite (bigsum_swap RL). apply bigsum_ext. intros x Hx. apply in_seq in Hx.
    rewrite (el_mmul C (mtrans B) r c k) by (auto; try lia; apply mtrans_mat; auto). rewrite <- (bigsum_mul_l RL). apply bigsum_ext.
    intros j Hj. apply in_seq in Hj. rewrite (el_mtrans B k c) by (auto; lia). ring.
Qed.
Lemma mmul_add_l A B C r k c : is_mat A r k -> is_mat B r k -> is_mat C k c -> mmul (madd A B) C = madd (mmul A C) (mmul B C).
Proof.
  intros HA HB HC. apply (mat_ext _ _ r c); [eapply mmul_mat; eauto; apply madd_mat; auto|apply madd_mat; eapply mmul_mat; eauto|].
  intros i j Hi Hj. rewrite (el_madd _ _ r c) by (auto; eapply mmul_mat; eauto). rewrite !(el_mmul _ C r k c) by (auto; apply madd_mat; auto).
  rewrite <- (bigsum_add RL). apply bigsum_ext. intros x Hx. apply in_seq in Hx. rewrite (el_madd _ _ r k) by (auto; lia). ring.
Qed.
Lemma mmul_sub_l A B C r k c : is_mat A r k -> is_mat B r k -> is_mat C k c -> mmul (msub A B) C = msub (mmul A C) (mmul B C).
Proof.
  intros HA HB HC. apply (mat_ext _ _ r c); [eapply mmul_mat; eauto; apply msub_mat'; auto|apply msub_mat'; eapply mmul_mat; eauto|].
  intros i j Hi Hj. rewrite (el_msub _ _ r c) by (auto; eapply mmul_mat; eauto). rewrite !(el_mmul _ C r k c) by (auto; apply msub_mat'; auto).
  rewrite <- (bigsum_sub RL). apply bigsum_ext. intros x Hx. apply in_seq in Hx. rewrite (el_msub _ _ r k) by (auto; lia). ring.
Qed.
Lemma msub_zero A r k : is_mat A r k -> msub A (zeros [r; k]) = A.
Proof.
  intros HA. apply (mat_ext _ _ r k); auto; [apply msub_mat'; auto|]. intros i j Hi Hj. rewrite (el_msub _ _ r k) by auto.
  unfold el at 2. unfold zeros. rewrite at_tabulate by (apply inb2; auto). ring.
Qed.
Lemma mtrans_invol A r c : is_mat A r c -> mtrans (mtrans A) = A.
Proof.
  intros HA. apply (mat_ext _ _ r c); auto; [do 2 apply mtrans_mat; auto|]. intros i j Hi Hj.
  rewrite (el_mtrans (mtrans A) c r) by (auto; apply mtrans_mat; auto). apply (el_mtrans A r c); auto.
Qed.
Lemma mtrans_mmul A B r k c : is_mat A r k -> is_mat B k c -> mtrans (mmul A B) = mmul (mtrans B) (mtrans A).
Proof.
  intros HA HB. apply (mat_ext _ _ c r).
  - apply mtrans_mat. eapply mmul_mat; eauto.
  - eapply mmul_mat; apply mtrans_mat; eauto.
  - intros i j Hi Hj. rewrite (el_mtrans _ r c) by (auto; eapply mmul_mat; eauto). rewrite (el_mmul A B r k c) by auto.
    rewrite (el_mmul _ _ c k r) by (auto; apply mtrans_mat; auto). apply bigsum_ext. intros x Hx. apply in_seq in Hx.
    rewrite (el_mtrans B k c), (el_mtrans A r k) by (auto; lia). ring.
Qed.

(** G = L L^T and X L^T = M - A G *)
Section Q.
Context (A L G M X : tensor N) (r k : nat).
Hypothesis HA : is_mat A r k.
Hypothesis HM : is_mat M r k.
Hypothesis HL : is_mat L k k.
Hypothesis HX : is_mat X r k.
Hypothesis EG : G = mmul L (mtrans L).
Hypothesis EX : mmul X (mtrans L) = msub M (mmul A G).
Let HLt := mtrans_mat L k k HL.
Let HG : is_mat G k k. Proof. rewrite EG. eapply mmul_mat; eauto. Qed.
Lemma Gsym : mtrans G = G.
Proof. rewrite EG. rewrite (mtrans_mmul L (mtrans L) k k k) by auto. rewrite (mtrans_invol L k k) by auto. auto. Qed.
Lemma update_leaves D : is_mat D r k -> msub M (mmul (madd A D) G) = mmul (msub X (mmul D L)) (mtrans L).
Proof.
  intros HD. assert (HDL : is_mat (mmul D L) r k) by (eapply mmul_mat; eauto).
  rewrite (mmul_sub_l X (mmul D L) (mtrans L) r k k), EX by auto.
  rewrite (mmul_assoc RL D L (mtrans L) r k k k), <- EG by auto.
  rewrite (mmul_add_l A D G r k k) by auto.
  assert (H1 : is_mat (mmul A G) r k) by (eapply mmul_mat; eauto). assert (H2 : is_mat (mmul D G) r k) by (eapply mmul_mat; eauto).
  apply (mat_ext _ _ r k); [apply msub_mat'; auto|apply msub_mat', msub_mat'; auto|].
  intros i j Hi Hj. rewrite !(el_msub _ _ r k), (el_madd _ _ r k) by (auto; try apply msub_mat'; auto). ring.
Qed.
Lemma update_quad D : is_mat D r k -> quad r k G M (madd A D) = quad r k G M A + dist2 r k X (mmul D L) - minner r k X X.
Proof.
  intros HD. assert (HDL : is_mat (mmul D L) r k) by (eapply mmul_mat; eauto).
  assert (H1 : is_mat (mmul A G) r k) by (eapply mmul_mat; eauto). assert (H2 : is_mat (mmul D G) r k) by (eapply mmul_mat; eauto).
  unfold quad, dist2. rewrite (mmul_add_l A D G r k k) by auto.
  rewrite !(minner_add r k) by auto. rewrite (minner_sym r k (mmul A G)), (minner_sym r k (mmul D G)), !(minner_add r k) by auto.
  assert (E1 : minner r k A (mmul D G) = minner r k (mmul A G) D).
  { rewrite (minner_mul r k k A G D) by auto. rewrite Gsym. auto. }
  assert (E2 : minner r k D (mmul D G) = minner r k (mmul D L) (mmul D L)).
  { rewrite (minner_mul r k k D L (mmul D L)) by auto. rewrite (mmul_assoc RL D L (mtrans L) r k k k), <- EG by auto. auto. }
  assert (E3 : minner r k D M - minner r k D (mmul A G) = minner r k (mmul D L) X).
  { rewrite (minner_mul r k k D L X) by auto. rewrite EX. rewrite !(minner_sym r k D). rewrite (minner_sub r k) by auto. auto. }

  rewrite (minner_sub r k X (mmul D L)) by auto. rewrite (minner_sym r k X (msub _ _)), (minner_sym r k (mmul D L) (msub _ _)), !(minner_sub r k) by auto.
  rewrite (minner_sym r k X (mmul D L)). rewrite E1, E2, <- E3.
  rewrite (minner_sym r k (mmul A G) D), (minner_sym r k A (mmul A G)). ring.
Qed.
End Q.

(** the squared residual as a function of factor n is the quadratic objective of its normal equations *)
Lemma resid_quad V W R n B : factors_ok V W R -> (n < order V)%nat -> is_mat B (nth n (lens V) 0%nat) R ->
  residual2 V (setf W n B) R = bigsum (all_idx (lens V)) (fun x => at_ V x * at_ V x) + quad (nth n (lens V) 0%nat) R (hgram W n R) (mttkrp V W n R) B.
Proof.
  intros HW Hn HB. set (r := nth n (lens V) 0%nat) in *.
  assert (HV := HW). destruct HV as (HV & HL & HWm).
  assert (HM : is_mat (mttkrp V W n R) r R) by (split; [reflexivity|apply tabulate_wf]).
  assert (HH : is_mat (hgram W n R) R R) by (split; [reflexivity|apply tabulate_wf]).
  assert (HBH : is_mat (mmul B (hgram W n R)) r R) by (eapply mmul_mat; eauto).
  set (Z0 := zeros [r; R] : tensor N). assert (HZ : is_mat Z0 r R) by (split; [reflexivity|apply tabulate_wf]).
  assert (EZ : forall x, (nth n x 0 < r)%nat -> cp_at (setf W n Z0) R x = n0).
  { intros x Hx. rewrite (cp_at_split RL _ R n) by (unfold setf; rewrite lset_length; lia). apply bigsum_zero; auto. intros j Hj. apply in_seq in Hj.
    rewrite fac_setf, Nat.eqb_refl by lia. unfold Z0, el, zeros. rewrite at_tabulate by (apply inb2; lia). ring. }
  assert (Hb : forall x, In x (all_idx (lens V)) -> (nth n x 0 < r)%nat).
  { intros x Hx. apply all_idx_in in Hx. apply inb_nth; auto. }
  assert (E0 : bigsum (all_idx (lens V)) (fun x => at_ V x * cp_at (setf W n B) R x) = minner r R (mttkrp V W n R) B).
  { transitivity (bigsum (all_idx (lens V)) (fun x => (at_ V x - cp_at (setf W n Z0) R x) * cp_at (setf W n B) R x)).
    - apply bigsum_ext. intros x Hx. rewrite EZ by auto. ring.
    - rewrite (cross_term RL V W R n Z0 B) by auto. fold r. unfold minner. rewrite <- (bigsum_opp RL). apply bigsum_ext. intros i Hi. apply in_seq in Hi.
      rewrite <- (bigsum_opp RL). apply bigsum_ext. intros j Hj. apply in_seq in Hj. rewrite (el_msub _ _ r R) by (auto; try lia; eapply mmul_mat; eauto).
      rewrite (el_mmul Z0 _ r R R) by (auto; lia). rewrite (bigsum_zero RL (seq 0 R)); [ring|]. intros x Hx. apply in_seq in Hx. unfold Z0, el at 1, zeros.
      rewrite at_tabulate by (apply inb2; lia). ring. }
  assert (E1 : bigsum (all_idx (lens V)) (fun x => (at_ V x - cp_at (setf W n B) R x) * cp_at (setf W n B) R x)
     = minner r R (mttkrp V W n R) B - minner r R (mmul B (hgram W n R)) B).
  { rewrite (cross_term RL V W R n B B) by auto. fold r. rewrite (minner_sub r R) by auto. ring. }
  unfold residual2, quad.
  transitivity (bigsum (all_idx (lens V)) (fun x => at_ V x * at_ V x) - bigsum (all_idx (lens V)) (fun x => at_ V x * cp_at (setf W n B) R x)
    - bigsum (all_idx (lens V)) (fun x => (at_ V x - cp_at (setf W n B) R x) * cp_at (setf W n B) R x)).
  - rewrite <- !(bigsum_sub RL). apply bigsum_ext. intros x _. ring.
  - rewrite E0, E1, (minner_sym r R B (mttkrp V W n R)). ring.
Qed.
End P.
