(** Exact optimizer updates never increase the regularised objective *)
From Coq Require Import List ZArith Lia Bool Arith Permutation Ring.
From Verif Require Import Base Num Tensor Spec Spec3 Spec10 Spec11 MCommon PBase PTensor PSum PMttkrp PMat PMatAlg PResid PGrad PRank POptLR PRank2 PALS PMono.
Import ListNotations.

Section P.
Context {N : num} (RL : ring_laws N) (OL : ord_laws N).
Let RT : ring_theory (@n0 N) n1 nadd nmul nsub nopp (@eq N) := RL.
Add Ring Nring : RT.
Local Open Scope num_scope.
Implicit Types A B D G L M X : tensor N.

Lemma minner_pos r k A : nle n0 (minner r k A A).
Proof.
  unfold minner. induction (seq 0 r) as [|i l IH]; cbn; [apply (le_refl OL)|]. apply (le_add OL); auto.
  clear IH. induction (seq 0 k) as [|j l' IH]; cbn; [apply (le_refl OL)|]. apply (le_add OL); auto. apply (le_sq OL).
Qed.
Lemma full_quad G L M X B r k : is_mat B r k -> is_mat X r k -> is_mat M r k -> is_mat L k k -> G = mmul L (mtrans L) -> mmul X G = M ->
  exists e, nle n0 e /\ quad r k G M B = quad r k G M X + e.
Proof.
  intros HB HX HM HL EG EX. set (D := msub X B). assert (HD : is_mat D r k) by (apply msub_mat'; auto). assert (HLt := mtrans_mat L k k HL).
  assert (HG : is_mat G k k) by (rewrite EG; eapply mmul_mat; eauto).
  assert (HDL : is_mat (mmul D L) r k) by (eapply mmul_mat; eauto).
  assert (HBG : is_mat (mmul B G) r k) by (eapply mmul_mat; eauto).
  assert (E1 : mmul (mmul D L) (mtrans L) = msub M (mmul B G)).
  { rewrite (mmul_assoc RL D L _ r k k k), <- EG by auto. unfold D. rewrite (mmul_sub_l RL X B G r k k), EX by auto. auto. }
  assert (E2 : X = madd B D).
  { apply (mat_ext _ _ r k); auto; [apply madd_mat; auto|]. intros i j Hi Hj. rewrite (el_madd _ _ r k) by auto. unfold D. rewrite (el_msub _ _ r k) by auto. ring. }
  assert (E3 := update_quad RL B L G M (mmul D L) r k HB HM HL HDL EG E1 D HD). rewrite <- E2 in E3.
  assert (E4 : dist2 r k (mmul D L) (mmul D L) = n0).
  { unfold dist2. rewrite (minner_sub RL r k) by auto. ring. }
  rewrite E4 in E3. exists (minner r k (mmul D L) (mmul D L)). split; [apply minner_pos|]. rewrite E3. ring.
Qed.
Lemma mmul_zero A B r k c : (forall i j, (i < r)%nat -> (j < k)%nat -> el A i j = n0) -> is_mat A r k -> is_mat B k c -> mmul A B = zeros [r; c].
Proof.
  intros H HA HB. apply (mat_ext _ _ r c); [eapply mmul_mat; eauto|split; [reflexivity|apply tabulate_wf]|]. intros i j Hi Hj.
  rewrite (el_mmul _ _ r k c) by auto. unfold el at 3, zeros. rewrite at_tabulate by (apply inb2; auto). apply (bigsum_zero RL). intros x Hx. apply in_seq in Hx. rewrite H by lia. ring.
Qed.
Lemma low_quad G L M X A D Y r R k : is_mat A r R -> is_mat X r R -> is_mat M r R -> is_mat L R R -> G = mmul L (mtrans L) ->
  mmul X (mtrans L) = msub M (mmul A G) -> is_mat D r R -> mmul D L = Y -> best_rank r R k X Y ->
  exists e, nle n0 e /\ quad r R G M A = quad r R G M (madd A D) + e.
Proof.
  intros HA HX HM HL EG EX HD EY Hb. assert (E := update_quad RL A L G M X r R HA HM HL HX EG EX D HD). rewrite EY in E.
  set (P := zeros [r; k] : tensor N). set (Q := zeros [k; R] : tensor N). assert (HP : is_mat P r k) by (split; [reflexivity|apply tabulate_wf]).
  assert (HQ : is_mat Q k R) by (split; [reflexivity|apply tabulate_wf]).
  specialize (Hb P Q HP HQ). rewrite (mmul_zero P Q r k R) in Hb; auto.
  2:{ intros i j Hi Hj. unfold P, el, zeros. rewrite at_tabulate by (apply inb2; auto). auto. }
  assert (E0 : dist2 r R X (zeros [r; R]) = minner r R X X) by (unfold dist2; rewrite (msub_zero RL X r R) by auto; auto).
  rewrite E0 in Hb. eexists. split; [exact Hb|]. rewrite E. ring.
Qed.
(** the objective as a function of factor n *)
Lemma obj_quad lambda V W R n : factors_ok V W R -> (n < order V)%nat ->
  exists c, forall B, is_mat B (nth n (lens V) 0%nat) R ->
    objective lambda V (setf W n B) R = c + quad (nth n (lens V) 0%nat) R (als_lhs lambda W R n) (mttkrp V W n R) B.
Proof.
  intros HW Hn. assert (HL : length W = order V) by apply HW. set (r := nth n (lens V) 0%nat).
  exists (bigsum (all_idx (lens V)) (fun x => at_ V x * at_ V x) + lambda * bigsum (others n (order V)) (fun m => fro2 (fac W m))).
  intros B HB. unfold objective. rewrite (resid_quad RL V W R n B) by auto. fold r.
  assert (EL : length (setf W n B) = order V) by (unfold setf; rewrite lset_length; auto). rewrite EL.
  rewrite <- (bigsum_perm RL (n :: others n (order V)) (seq 0 (order V))) by (apply others_perm; auto).
  change (bigsum (n :: others n (order V)) ?f) with (f n + bigsum (others n (order V)) f). cbv beta.
  rewrite (bigsum_ext (others n (order V)) _ (fun m => fro2 (fac W m))).
  2:{ intros m Hm. apply others_in in Hm. rewrite fac_setf by lia. destruct (Nat.eqb_spec m n); [lia|auto]. }
  rewrite fac_setf, Nat.eqb_refl by lia.
  assert (EB : fro2 B = minner r R B B) by (unfold fro2; rewrite (is_mat_nrow _ _ _ HB), (is_mat_ncol _ _ _ HB); auto). rewrite EB.
  assert (Hh := hgram_mat R W n). assert (HI : is_mat (mscal lambda (mid R) : tensor N) R R) by (apply mscal_mat, mdiag_mat).
  assert (Eq : quad r R (als_lhs lambda W R n) (mttkrp V W n R) B = quad r R (hgram W n R) (mttkrp V W n R) B + lambda * minner r R B B).
  { unfold quad. assert (E1 : minner r R (mmul B (als_lhs lambda W R n)) B = minner r R (mmul B (hgram W n R)) B + lambda * minner r R B B); [|rewrite E1; ring].
    unfold minner at 1. unfold minner at 1. unfold minner. rewrite <- (bigsum_mul_l RL), <- (bigsum_add RL). apply bigsum_ext. intros i Hi. apply in_seq in Hi.
    rewrite <- (bigsum_mul_l RL), <- (bigsum_add RL). apply bigsum_ext. intros j Hj. apply in_seq in Hj. unfold als_lhs.
    rewrite !(el_mmul B _ r R R) by (auto; try lia; apply madd_mat; auto).
    replace (bigsum (seq 0 R) (fun x => el B i x * el (madd (hgram W n R) (mscal lambda (mid R))) x j))
      with (bigsum (seq 0 R) (fun x => el B i x * el (hgram W n R) x j) + lambda * el B i j); [ring|].
    rewrite <- (bigsum_delta RL j R (fun x => lambda * el B i x)) by lia. rewrite <- (bigsum_add RL). apply bigsum_ext. intros x Hx. apply in_seq in Hx.
    rewrite (el_madd _ _ R R), (el_mscal _ _ R R) by (auto; try lia; apply mdiag_mat). unfold mid. rewrite el_mdiag by lia.
    destruct (Nat.eqb_spec x j), (Nat.eqb_spec j x); try lia; ring. }
  rewrite Eq. ring.
Qed.
Lemma lhs_mat lambda (W : list (tensor N)) R n : is_mat (als_lhs lambda W R n) R R.
Proof. unfold als_lhs. apply madd_mat. apply hgram_mat. Qed.
Lemma setf_ok V W R n B : factors_ok V W R -> (n < order V)%nat -> is_mat B (nth n (lens V) 0%nat) R -> factors_ok V (setf W n B) R.
Proof.
  intros (H1 & H2 & H3) Hn HB. split; auto. split; [unfold setf; rewrite lset_length; auto|]. intros m Hm. rewrite fac_setf by lia.
  destruct (Nat.eqb_spec m n); [subst; auto|auto].
Qed.
Lemma obj_le lambda V W R n A X e : factors_ok V W R -> (n < order V)%nat -> is_mat A (nth n (lens V) 0%nat) R -> is_mat X (nth n (lens V) 0%nat) R ->
  nle n0 e -> quad (nth n (lens V) 0%nat) R (als_lhs lambda W R n) (mttkrp V W n R) A = quad (nth n (lens V) 0%nat) R (als_lhs lambda W R n) (mttkrp V W n R) X + e ->
  nle (objective lambda V (setf W n X) R) (objective lambda V (setf W n A) R).
Proof.
  intros HW Hn HA HX He E. destruct (obj_quad lambda V W R n HW Hn) as (c & Hc). rewrite !Hc by auto. rewrite E.
  rewrite (Radd_assoc RL). apply (le_add_r OL); auto.
Qed.
Context (chol : tensor N -> tensor N) (tri : tensor N -> tensor N -> bool -> bool -> bool -> tensor N).
Lemma chol_solves S0 M r R : chol_exact chol tri S0 R -> is_mat M r R -> is_mat (chol_solve chol tri M S0) r R /\ mmul (chol_solve chol tri M S0) S0 = M.
Proof.
  intros [[HL ES] Ht] HM. unfold chol_solve. destruct (Ht M r HM) as [[H1 E1] _]. destruct (Ht _ r H1) as [_ [H2 E2]]. split; auto.
  set (L := chol S0) in *. clearbody L. set (Y := tri (tri M L true false true) L true false false) in *. clearbody Y.
  rewrite ES. rewrite <- (mmul_assoc RL Y L (mtrans L) r R R R) by (auto; apply mtrans_mat; auto). rewrite E2. auto.
Qed.
(** a full update *)
Lemma full_mono lambda V W R n : factors_ok V W R -> (n < order V)%nat -> chol_exact chol tri (als_lhs lambda W R n) R ->
  let W' := setf W n (chol_solve chol tri (mttkrp V W n R) (als_lhs lambda W R n)) in
  factors_ok V W' R /\ nle (objective lambda V W' R) (objective lambda V W R).
Proof.
  intros HW Hn HC W'. assert (HM := mttkrp_mat V R W n). destruct (chol_solves _ _ _ R HC HM) as [HX EX].
  split; [apply setf_ok; auto|]. assert (HL : length W = order V) by apply HW. assert (HA : is_mat (fac W n) (nth n (lens V) 0%nat) R) by (apply HW; auto).
  replace (objective lambda V W R) with (objective lambda V (setf W n (fac W n)) R) by (rewrite (setf_self W n) by lia; auto).
  destruct HC as [[HLm ES] _].
  destruct (full_quad (als_lhs lambda W R n) (chol (als_lhs lambda W R n)) (mttkrp V W n R) _ (fac W n) (nth n (lens V) 0%nat) R HA HX HM HLm ES EX) as (e & He & E).
  unfold W'. apply (obj_le lambda V W R n (fac W n) _ e); auto.
Qed.
(** a low-rank update relative to the current factor *)
Lemma low_mono trunc c k lambda V W R n : factors_ok V W R -> (n < order V)%nat -> chol_exact chol tri (als_lhs lambda W R n) R ->
  (forall X, is_mat X (nth n (lens V) 0%nat) R -> let '(U, s, VT) := trunc c X k in is_mat U (nth n (lens V) 0%nat) k /\ is_mat VT k R) ->
  (let X := tri (msub (mttkrp V W n R) (mmul (fac W n) (als_lhs lambda W R n))) (chol (als_lhs lambda W R n)) true false true in
   let '(U, s, VT) := trunc c X k in best_rank (nth n (lens V) 0%nat) R k X (usv k U s VT)) ->
  let W' := setf W n (madd (fac W n) (lr_inc trunc chol tri k c (mttkrp V W n R) (fac W n) (als_lhs lambda W R n))) in
  factors_ok V W' R /\ nle (objective lambda V W' R) (objective lambda V W R).
Proof.
  intros HW Hn HC Hsh Hb W'. assert (HM := mttkrp_mat V R W n). assert (HA : is_mat (fac W n) (nth n (lens V) 0%nat) R) by (apply HW; auto).
  assert (HL : length W = order V) by apply HW. assert (HS := lhs_mat lambda W R n). destruct HC as [[HLm ES] Ht].
  unfold W', lr_inc, lr_factors. set (Sm := als_lhs lambda W R n) in *. set (L := chol Sm) in *. set (M := mttkrp V W n R) in *. set (r := nth n (lens V) 0%nat) in *.
  assert (HR : is_mat (msub M (mmul (fac W n) Sm)) r R) by (apply msub_mat'; auto).
  destruct (Ht _ r HR) as [[HX EX] _]. set (X := tri (msub M (mmul (fac W n) Sm)) L true false true) in *. specialize (Hsh X HX). cbv zeta in Hb.
  destruct (trunc c X k) as [[U s] VT]. destruct Hsh as [HU HV]. destruct (Ht VT k HV) as [_ [HV' EV']].
  destruct (usv_mk RL U s _ k r R HU HV') as [HD _]. assert (HAD : is_mat (madd (fac W n) (usv k U s (tri VT L true false false))) r R) by (apply madd_mat; auto).
  split; [apply setf_ok; auto|].
  replace (objective lambda V W R) with (objective lambda V (setf W n (fac W n)) R) by (rewrite (setf_self W n) by lia; auto).
  destruct (low_quad Sm L M X (fac W n) (usv k U s (tri VT L true false false)) (usv k U s VT) r R k) as (e & He & E); auto.
  { rewrite (usv_mul RL U s _ L k r R R) by auto. rewrite EV'. auto. }
  apply (obj_le lambda V W R n (fac W n) _ e); auto.
Qed.
(** sequences of full updates *)
Lemma modes_mono lambda V R modes W (G : list (tensor N)) : factors_ok V W R -> (forall n, In n modes -> (n < order V)%nat) -> exact_along chol tri lambda V R modes (W, G) ->
  let W' := fst (ls_modes (chol_solve chol tri) lambda V R modes (W, G)) in
  factors_ok V W' R /\ nle (objective lambda V W' R) (objective lambda V W R).
Proof.
  revert W G. induction modes as [|n modes IH]; intros W G HW Hn He.
  - split; [exact HW|apply (le_refl OL)].
  - destruct (full_mono lambda V W R n HW (Hn n (or_introl eq_refl)) (He [] n modes eq_refl)) as [H1 H2]. cbv zeta in H1, H2.
    unfold ls_modes. cbn [fold_left ls_update].
    destruct (IH (setf W n (chol_solve chol tri (mttkrp V W n R) (als_lhs lambda W R n))) (setf G n (msub (mmul (fac W n) (als_lhs lambda W R n)) (mttkrp V W n R)))) as [H3 H4]; auto.
    { intros m Hm. apply Hn; right; auto. }
    { intros a m b E. subst modes. exact (He (n :: a) m b eq_refl). }
    split; [exact H3|]. eapply (le_trans OL); [exact H4|exact H2].
Qed.
(** sequences of actions in which every low-rank update is relative to the current factor *)
Inductive fresh : list action -> Prop :=
| fresh_nil : fresh []
| fresh_full n l : fresh l -> fresh (Full n :: l)
| fresh_low n l : fresh l -> fresh (Snap n :: LowRank n :: l).
Lemma fresh_app l l' : fresh l -> fresh l' -> fresh (l ++ l').
Proof. induction 1; cbn; auto; constructor; auto. Qed.
Lemma acts_mono trunc k lambda V R acts st : (forall c X r, is_mat X r R -> (k <= r)%nat -> let '(U, s, VT) := trunc c X k in is_mat U r k /\ is_mat VT k R) ->
  (forall n, (n < order V)%nat -> (k <= nth n (lens V) 0)%nat) ->
  fresh acts -> factors_ok V (rW st) R -> length (rRef st) = order V -> (forall a, In a acts -> (act_mode a < order V)%nat) ->
  acts_exact chol tri trunc k lambda V R acts st ->
  let st' := lr_acts (chol_solve chol tri) (lr_inc trunc chol tri k) lambda V R acts st in
  factors_ok V (rW st') R /\ length (rRef st') = order V /\ nle (objective lambda V (rW st') R) (objective lambda V (rW st) R).
Proof.
  intros Hsh Hk Hf. revert st. induction Hf as [|n l Hf IH|n l Hf IH]; intros st HW HR Hm He.
  - split; [exact HW|]. split; [exact HR|apply (le_refl OL)].
  - destruct st as [W G ref c]. cbn [rW rRef] in *. assert (Hn : (n < order V)%nat) by (apply (Hm (Full n)); left; auto).
    destruct (full_mono lambda V W R n HW Hn (He [] (Full n) l eq_refl)) as [H1 H2]. cbv zeta in H1, H2.
    destruct (IH (lr_act (chol_solve chol tri) (lr_inc trunc chol tri k) lambda V R (mkLR W G ref c) (Full n))) as (H3 & H4 & H5); auto.
    { intros a Ha. apply Hm; right; auto. } { intros l1 a b E. subst l. exact (He (Full n :: l1) a b eq_refl). }
    split; [exact H3|]. split; [exact H4|]. eapply (le_trans OL); [exact H5|exact H2].
  - destruct st as [W G ref c]. cbn [rW rRef] in *. assert (Hn : (n < order V)%nat) by (apply (Hm (LowRank n)); right; left; auto).
    assert (HE := He [Snap n] (LowRank n) l eq_refl). cbn [lr_acts fold_left lr_act act_mode rW rRef rCnt] in HE. rewrite fac_setf, Nat.eqb_refl in HE by lia.
    destruct HE as [HE1 HE2].
    destruct (low_mono trunc c k lambda V W R n HW Hn HE1 (fun X HX => Hsh c X _ HX (Hk n Hn)) HE2) as [H1 H2].
    cbv zeta in H1, H2.
    destruct (IH (lr_act (chol_solve chol tri) (lr_inc trunc chol tri k) lambda V R (lr_act (chol_solve chol tri) (lr_inc trunc chol tri k) lambda V R (mkLR W G ref c) (Snap n)) (LowRank n))) as (H3 & H4 & H5); auto.
    { cbn [lr_act rW]. rewrite fac_setf, Nat.eqb_refl by lia. exact H1. }
    { cbn [lr_act rRef]. unfold setf. rewrite lset_length. auto. }
    { intros a Ha. apply Hm; do 2 right; auto. } { intros l1 a b E. subst l. exact (He (Snap n :: LowRank n :: l1) a b eq_refl). }
    split; [exact H3|]. split; [exact H4|]. eapply (le_trans OL); [exact H5|]. cbn [lr_act rW rRef]. rewrite fac_setf, Nat.eqb_refl by lia. exact H2.
Qed.
End P.
