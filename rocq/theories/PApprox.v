(** Over the reals: an update computed from an inexact MTTKRP.  The objective after it is at most the objective before plus
    |error|^2 / lambda, and the new factor is within |error| / lambda of the exact one *)
From Coq Require Import List ZArith QArith Lia Bool Arith Reals Lra.
From Verif Require Import Base Num NumR Tensor Spec Spec3 Spec10 Spec11 Spec19 MCommon PBase PTensor PSum PMttkrp PMat PMatAlg PResid PGrad PRank PNormalize PALS PMono PMono2 PTuckMono
  PConv PConv2 PConv4 PErr.
Import ListNotations.
Local Close Scope Q_scope.
Local Open Scope R_scope.
Local Notation RL := Rnum_ring.
Local Notation bs := (bigsum (N:=Rnum)).

Section Mat.
Context (r k : nat).
Implicit Types A B C D : tensor Rnum.
Definition ip A B : R := minner r k A B.
Lemma ip_sym A B : ip A B = ip B A.
Proof. apply (minner_sym RL). Qed.
Lemma ip_sub A B C : is_mat A r k -> ip (msub A B) C = ip A C - ip B C.
Proof. apply (minner_sub RL). Qed.
Lemma ip_scal (c : R) A C : is_mat A r k -> ip (mscal (c : Rnum) A) C = c * ip A C.
Proof.
  intros HA. unfold ip, minner. change (bs (seq 0 r) (fun i => bs (seq 0 k) (fun j => el (mscal (c : Rnum) A) i j * el C i j)) = c * bs (seq 0 r) (fun i => bs (seq 0 k) (fun j => el A i j * el C i j))).
  rewrite <- bs_mul_l. apply bs_ext. intros i Hi. apply in_seq in Hi. rewrite <- bs_mul_l. apply bs_ext. intros j Hj. apply in_seq in Hj.
  rewrite (el_mscal _ _ r k) by (auto; lia). apply Rmult_assoc.
Qed.
Lemma ip_pos A : 0 <= ip A A.
Proof. apply bigsum_nonneg. intros i _. apply bigsum_nonneg. intros j _. apply Rle_0_sqr. Qed.
Lemma ip_norm A : is_mat A r k -> ip A A = norm2 A * norm2 A.
Proof.
  intros HA. rewrite (norm2_mat A r k HA). unfold ip, minner. apply (bigsum_swap RL).
Qed.
Lemma ip_le A B : is_mat A r k -> is_mat B r k -> ip A B <= norm2 A * norm2 B.
Proof.
  intros HA HB. apply sq_le; [apply Rmult_le_pos; apply norm2_pos|].
  replace (norm2 A * norm2 B * (norm2 A * norm2 B)) with ((norm2 A * norm2 A) * (norm2 B * norm2 B)) by ring. rewrite <- !ip_norm by auto.
  assert (E : forall P Q : tensor Rnum, ip P Q = bs (list_prod (seq 0 r) (seq 0 k)) (fun p => el P (fst p) (snd p) * el Q (fst p) (snd p))).
  { intros P Q. unfold ip, minner. induction (seq 0 r) as [|i l IH]; [reflexivity|]. cbn [list_prod]. rewrite bs_app, bs_map. cbn [fst snd]. rewrite <- IH. reflexivity. }
  rewrite !E. apply cauchy.
Qed.
Lemma mscal_mat' (c : R) A : is_mat A r k -> is_mat (mscal (c : Rnum) A) r k.
Proof. apply mscal_mat. Qed.
End Mat.

Lemma young (l d2 x e2 : R) : 0 < l -> 0 <= l * (l * d2) + 2 * (l * x) + e2 -> - (2 * x) <= l * d2 + e2 / l.
Proof.
  intros Hl H. apply (Rmult_le_reg_l l); auto. replace (l * (l * d2 + e2 / l)) with (l * (l * d2) + e2) by (field; lra). lra.
Qed.
Lemma combine_le (t l d q x e2 : R) : 0 <= t <= 1 -> 0 < l -> 0 <= d -> l * d <= q -> - (2 * x) <= l * d + e2 / l ->
  ((1 - t) * (1 - t) - 1) * q - 2 * (t * x) <= t * (e2 / l).
Proof.
  intros Ht Hl Hd Hq Hx. assert (H0 : 0 <= l * d) by (apply Rmult_le_pos; lra).
  assert (K1 : t * (l * d) <= t * (2 - t) * q).
  { apply Rle_trans with (t * (2 - t) * (l * d)).
    - replace (t * (2 - t) * (l * d)) with (t * (l * d) + t * (1 - t) * (l * d)) by ring. assert (0 <= t * (1 - t) * (l * d)) by (apply Rmult_le_pos; [apply Rmult_le_pos|]; lra). lra.
    - apply Rmult_le_compat_l; [apply Rmult_le_pos; lra|auto]. }
  assert (K2 : t * (- (2 * x)) <= t * (l * d + e2 / l)) by (apply Rmult_le_compat_l; lra).
  replace ((1 - t) * (1 - t) - 1) with (- (t * (2 - t))) by ring. rewrite Rmult_plus_distr_l in K2. set (z := t * (2 - t)) in *. clearbody z. lra.
Qed.

Section Update.
Context (V : tensor Rnum) (W : list (tensor Rnum)) (rk n : nat) (lambda : R).
Hypothesis HW : factors_ok V W rk.
Hypothesis Hn : (n < order V)%nat.
Hypothesis Hl : 0 < lambda.
Let r := nth n (lens V) 0%nat.
Let S := als_lhs (lambda : Rnum) W rk n.
Let M := mttkrp V W n rk.
Lemma lhs_lower D : is_mat D r rk -> lambda * ip r rk D D <= ip r rk (mmul D S) D.
Proof.
  intros HD. assert (HS : is_mat S rk rk) by apply lhs_mat. unfold ip, minner.
  change (lambda * bs (seq 0 r) (fun i => bs (seq 0 rk) (fun j => el D i j * el D i j)) <= bs (seq 0 r) (fun i => bs (seq 0 rk) (fun j => el (mmul D S) i j * el D i j))).
  rewrite <- bs_mul_l. apply bs_le. intros i Hi. apply in_seq in Hi.
  pose proof (lhs_definite V W rk n lambda (fun j => el D i j) HW Hn ltac:(fold r; lia)) as H. eapply Rle_trans; [exact H|].
  apply Req_le. apply bs_ext. intros j Hj. apply in_seq in Hj. f_equal. rewrite (el_mmul D S r rk rk) by (auto; lia). reflexivity.
Qed.
Variable M' X : tensor Rnum.
Hypothesis HM' : is_mat M' r rk.
Hypothesis HX : is_mat X r rk.
Hypothesis EX : mmul X S = M'.
Theorem inexact_update (t : R) B : 0 <= t <= 1 -> B = madd (fac W n) (mscal (t : Rnum) (msub X (fac W n))) ->
  factors_ok V (setf W n B) rk /\
  objective (lambda : Rnum) V (setf W n B) rk <= objective (lambda : Rnum) V W rk + t * ((norm2 (msub M M') * norm2 (msub M M')) / lambda).
Proof.
  intros Ht EB. assert (HL : length W = order V) by apply HW. assert (HA : is_mat (fac W n) r rk) by (apply HW; auto).
  assert (HS : is_mat S rk rk) by apply lhs_mat. assert (HM : is_mat M r rk) by apply mttkrp_mat.
  set (A := fac W n) in *. set (D := msub A X). assert (HD : is_mat D r rk) by (apply msub_mat'; auto).
  assert (HB : is_mat B r rk) by (rewrite EB; apply madd_mat; auto).
  split; [apply setf_ok; auto|]. destruct (obj_quad RL (lambda : Rnum) V W rk n HW Hn) as (c & Hc). fold r S M in Hc.
  assert (E1 : objective (lambda : Rnum) V W rk = c + quad r rk S M A).
  { rewrite <- (setf_self W n) at 1 by lia. fold A. apply Hc. auto. }
  assert (E2 : objective (lambda : Rnum) V (setf W n B) rk = c + quad r rk S M B) by (apply Hc; auto).
  rewrite E1, E2. clear E1 E2 Hc.
  set (E := msub M M'). assert (HE : is_mat E r rk) by (apply msub_mat'; auto).
  assert (QE : forall Y, is_mat Y r rk -> quad r rk S M Y = quad r rk S M' Y - 2 * ip r rk E Y).
  { intros Y HY. unfold quad. change (ip r rk (mmul Y S) Y - (1 + 1) * ip r rk Y M = ip r rk (mmul Y S) Y - (1 + 1) * ip r rk Y M' - 2 * ip r rk E Y).
    unfold E. rewrite ip_sub by auto. rewrite (ip_sym r rk Y M), (ip_sym r rk Y M'). ring. }
  assert (EBX : msub B X = mscal ((1 - t) : Rnum) D).
  { apply (mat_ext _ _ r rk); [apply msub_mat'; auto|apply mscal_mat; auto|]. intros i j Hi Hj.
    rewrite (el_msub _ _ r rk), EB, (el_madd _ _ r rk), (el_mscal _ _ r rk), (el_mscal _ _ r rk) by (auto; apply msub_mat'; auto). unfold D.
    rewrite !(el_msub _ _ r rk) by auto. fold A. generalize (el A i j), (el X i j). intros u v. change (u + t * (v - u) - v = (1 - t) * (u - v)). ring. }
  assert (EBA : ip r rk E B = ip r rk E A - t * ip r rk E D).
  { assert (EBs : B = msub A (mscal (t : Rnum) D)).
    { apply (mat_ext _ _ r rk); [auto|apply msub_mat'; auto|]. intros i j Hi Hj.
      rewrite EB, (el_msub _ _ r rk), (el_madd _ _ r rk), (el_mscal _ _ r rk), (el_mscal _ _ r rk) by (auto; apply msub_mat'; auto). unfold D.
      rewrite !(el_msub _ _ r rk) by auto. fold A. generalize (el A i j), (el X i j). intros u v. change (u + t * (v - u) = u - t * (u - v)). ring. }
    rewrite ip_sym, EBs, ip_sub by auto. rewrite ip_scal by auto. rewrite (ip_sym r rk A E), (ip_sym r rk D E). reflexivity. }
  destruct (quad_decrease S M' X A r rk HA HX HS (lhs_sym W rk n lambda) EX) as [_ QA]. fold D in QA.
  destruct (quad_decrease S M' X B r rk HB HX HS (lhs_sym W rk n lambda) EX) as [_ QB]. rewrite EBX in QB.
  assert (HDS : is_mat (mmul D S) r rk) by (eapply mmul_mat; eauto).
  assert (QS : minner r rk (mmul (mscal ((1 - t) : Rnum) D) S) (mscal ((1 - t) : Rnum) D) = (1 - t) * (1 - t) * ip r rk (mmul D S) D).
  { assert (EM : mmul (mscal ((1 - t) : Rnum) D) S = mscal ((1 - t) : Rnum) (mmul D S)).
    { apply (mat_ext _ _ r rk); [eapply mmul_mat; [apply mscal_mat; eauto|eauto]|apply mscal_mat; auto|]. intros i j Hi Hj.
      rewrite (el_mscal _ _ r rk) by auto. rewrite (el_mmul _ _ r rk rk) by (auto; apply mscal_mat; auto). rewrite (el_mmul _ _ r rk rk) by auto.
      rewrite <- (bigsum_mul_l RL). apply bigsum_ext. intros x Hx. apply in_seq in Hx. rewrite (el_mscal _ _ r rk) by (auto; lia). symmetry. apply Rmult_assoc || apply (Rmul_assoc RL). }
    rewrite EM. fold (ip r rk (mscal ((1 - t) : Rnum) (mmul D S)) (mscal ((1 - t) : Rnum) D)). rewrite ip_scal by auto. rewrite ip_sym, ip_scal by auto. rewrite (ip_sym r rk D). match goal with |- ?l = ?r => change (@eq R l r) end. ring. }
  rewrite QS in QB. rewrite (QE A HA), (QE B HB), QA, QB, EBA.
  fold (ip r rk (mmul D S) D).
  assert (Y : - (2 * ip r rk E D * -1) <= lambda * ip r rk D D + ip r rk E E / lambda).
  { replace (2 * ip r rk E D * -1) with (2 * (- ip r rk E D)) by ring. apply young; auto.
    assert (P : 0 <= ip r rk (msub (mscal (lambda : Rnum) D) E) (msub (mscal (lambda : Rnum) D) E)) by apply ip_pos.
    rewrite ip_sub in P by (apply mscal_mat; auto). rewrite ip_scal in P by auto. rewrite (ip_sym r rk D), (ip_sym r rk E (msub _ _)) in P.
    rewrite !ip_sub in P by (apply mscal_mat; auto). rewrite !ip_scal in P by auto. rewrite (ip_sym r rk D E) in P.
    revert P. generalize (ip r rk D D) (ip r rk E D) (ip r rk E E). intros d2 x e2 P.
    replace (lambda * (lambda * d2) + 2 * (lambda * - x) + e2) with (lambda * (lambda * d2 - x) - (lambda * x - e2)) by ring. exact P. }
  rewrite <- (ip_norm r rk E HE).
  pose proof (combine_le t lambda (ip r rk D D) (ip r rk (mmul D S) D) (- ip r rk E D) (ip r rk E E) Ht Hl (ip_pos r rk D) (lhs_lower D HD)) as K.
  replace (2 * ip r rk E D * -1) with (2 * (- ip r rk E D)) in Y by ring. specialize (K Y).
  set (qX := quad r rk S M' X) in *. set (eA := ip r rk E A) in *. set (eD := ip r rk E D) in *. set (q := ip r rk (mmul D S) D) in *. set (e2 := ip r rk E E) in *.
  change (c + (qX + (1 - t) * (1 - t) * q - 2 * (eA - t * eD)) <= c + (qX + q - 2 * eA) + t * (e2 / lambda)).
  change (car Rnum) with R in *. clearbody qX eA eD q e2. clear - K. lra.
Qed.
(** the new factor and the exact one *)
Theorem inexact_close X1 : is_mat X1 r rk -> mmul X1 S = M -> norm2 (msub X X1) <= norm2 (msub M M') / lambda.
Proof.
  intros HX1 EX1. assert (HS : is_mat S rk rk) by apply lhs_mat. assert (HM : is_mat M r rk) by apply mttkrp_mat.
  set (D := msub X X1). assert (HD : is_mat D r rk) by (apply msub_mat'; auto). set (E := msub M M'). assert (HE : is_mat E r rk) by (apply msub_mat'; auto).
  assert (ED : mmul D S = msub M' M) by (unfold D; rewrite (mmul_sub_l RL X X1 S r rk rk) by auto; rewrite EX, EX1; reflexivity).
  pose proof (lhs_lower D HD) as L. rewrite ED in L. rewrite ip_sub in L by auto.
  assert (K : ip r rk M' D - ip r rk M D = - ip r rk E D) by (unfold E; rewrite ip_sub by auto; ring). rewrite K in L.
  pose proof (ip_le r rk (msub M' M) D (msub_mat' _ _ _ _ HM') HD) as C. rewrite ip_sub in C by auto. rewrite K in C.
  assert (N0 : norm2 (msub M' M) = norm2 E).
  { assert (HE' : is_mat (msub M' M) r rk) by (apply msub_mat'; auto). apply Rsqr_inj; try apply norm2_pos. unfold Rsqr. rewrite <- (ip_norm r rk _ HE'), <- (ip_norm r rk _ HE).
    unfold E. rewrite !ip_sub by auto. rewrite (ip_sym r rk M' (msub M' M)), (ip_sym r rk M (msub M' M)), (ip_sym r rk M (msub M M')), (ip_sym r rk M' (msub M M')).
    rewrite !ip_sub by auto. rewrite (ip_sym r rk M M'). ring. }
  rewrite N0 in C. rewrite (ip_norm r rk D HD) in L. pose proof (norm2_pos D) as PD. pose proof (norm2_pos E) as PE.
  apply (Rmult_le_reg_l lambda); auto. rewrite (div_cancel lambda (norm2 E) Hl).
  destruct (Req_dec (norm2 D) 0) as [Z|Z]; [rewrite Z, Rmult_0_r; auto|]. apply (Rmult_le_reg_r (norm2 D)); [destruct PD; [auto|congruence]|].
  rewrite Rmult_assoc. eapply Rle_trans; [exact L|exact C].
Qed.
End Update.
