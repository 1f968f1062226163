(** Runs of exact updates: the gradients recorded against the decrease of the objective *)
From Coq Require Import List ZArith Lia Bool Arith Reals Lra Permutation.
From Verif Require Import Base Num NumR Tensor Spec Spec3 Spec10 Spec11 Spec18 Spec19 MCommon PBase PTensor PSum PMttkrp PMat PMatAlg PResid PGrad PRank PNormalize PALS PMono PMono2 PPPDriver PTuckMono PConv PConv2.
Import ListNotations.
Local Open Scope R_scope.
Local Notation RL := Rnum_ring.
Local Notation bs := (bigsum (N:=Rnum)).

Section Modes.
Context (V : tensor Rnum) (rk : nat) (lambda c B : R) (solve : tensor Rnum -> tensor Rnum -> tensor Rnum).
Hypothesis H2 : (2 <= order V)%nat.
Hypothesis Hl : 0 <= lambda.
Hypothesis HB : 0 <= B.
(** where the objective is at most c the factors are bounded *)
Hypothesis SB : forall W, factors_ok V W rk -> objective (lambda : Rnum) V W rk <= c -> forall m, (m < order V)%nat -> fro2 (fac W m) <= B.
Let T := INR rk * lambda + B ^ (order V - 1).
Lemma T_pos : 0 <= T.
Proof. unfold T. apply Rplus_le_le_0_compat; [apply Rmult_le_pos; auto; apply pos_INR|apply pow_le; auto]. Qed.
Definition solved (W : list (tensor Rnum)) (n : nat) : Prop :=
  let S := als_lhs (lambda : Rnum) W rk n in let M := mttkrp V W n rk in
  is_mat (solve M S) (nth n (lens V) 0%nat) rk /\ mmul (solve M S) S = M.
Definition solved_along (modes : list nat) (st : list (tensor Rnum) * list (tensor Rnum)) : Prop :=
  forall a n b, modes = a ++ n :: b -> let W := fst (ls_modes solve (lambda : Rnum) V rk a st) in factors_ok V W rk -> solved W n.
Lemma modes_snoc l n st : ls_modes solve (lambda : Rnum) V rk (l ++ [n]) st = ls_update solve (lambda : Rnum) V rk (ls_modes solve (lambda : Rnum) V rk l st) n.
Proof. unfold ls_modes. rewrite fold_left_app. reflexivity. Qed.
Theorem modes_decrease modes W G : factors_ok V W rk -> mats_ok V G rk -> objective (lambda : Rnum) V W rk <= c ->
  (forall n, In n modes -> (n < order V)%nat) -> solved_along modes (W, G) ->
  let st := ls_modes solve (lambda : Rnum) V rk modes (W, G) in
  factors_ok V (fst st) rk /\ mats_ok V (snd st) rk /\ objective (lambda : Rnum) V (fst st) rk <= objective (lambda : Rnum) V W rk /\
  forall P, NoDup P -> incl P modes ->
    bs P (fun m => fro2 (fac (snd st) m)) <= T * (objective (lambda : Rnum) V W rk - objective (lambda : Rnum) V (fst st) rk).
Proof.
  intros HW HG Hc. induction modes as [|n l IH] using rev_ind; intros Hn Hs st.
  - split; [exact HW|]. split; [exact HG|]. split; [apply Rle_refl|]. intros P _ HP. destruct P as [|x P]; [|destruct (HP x (or_introl eq_refl))].
    unfold st. cbn [ls_modes fold_left fst]. change (bs [] ?f) with 0. apply Req_le. rring.
  - destruct IH as (A1 & A2 & A3 & A4).
    { intros m Hm. apply Hn, in_or_app. auto. }
    { intros a m b E. apply (Hs a m (b ++ [n])). rewrite E, <- app_assoc. reflexivity. }
    assert (Hn' : (n < order V)%nat) by (apply Hn, in_or_app; right; left; auto).
    assert (HS := Hs l n [] eq_refl). cbv zeta in HS. specialize (HS A1). unfold st. rewrite modes_snoc.
    destruct (ls_modes solve (lambda : Rnum) V rk l (W, G)) as [W1 G1]. cbn [fst snd] in *. cbn [ls_update fst snd].
    destruct HS as [HX EX]. set (X := solve (mttkrp V W1 n rk) (als_lhs (lambda : Rnum) W1 rk n)) in *.
    destruct (update_decrease V W1 rk n lambda X A1 Hn' Hl HX EX) as (B1 & B2 & B3 & B4). cbv zeta in B1, B2, B3.
    set (Gn := msub (mmul (fac W1 n) (als_lhs (lambda : Rnum) W1 rk n)) (mttkrp V W1 n rk)) in *.
    assert (LG : length G1 = order V) by apply A2. assert (HT := T_pos).
    assert (B5 : fro2 Gn <= T * (objective (lambda : Rnum) V W1 rk - objective (lambda : Rnum) V (setf W1 n X) rk)).
    { eapply Rle_trans; [exact B3|]. apply Rmult_le_compat_r; [cbn in *; lra|]. apply (trace_le V W1 rk n lambda B); auto.
      intros m Hm. apply SB; auto. eapply Rle_trans; [exact A3|exact Hc]. }
    split; [exact B1|]. split.
    { split; [rewrite setf_length; auto|]. intros m Hm. rewrite fac_setf by lia. destruct (Nat.eqb_spec m n) as [->|]; [|apply A2; auto].
      apply msub_mat'; eapply mmul_mat; [apply A1; auto|apply lhs_mat]. }
    split; [eapply Rle_trans; [exact B2|exact A3]|]. intros P ND HP.
    assert (B6 : 0 <= T * (objective (lambda : Rnum) V W1 rk - objective (lambda : Rnum) V (setf W1 n X) rk)) by (apply Rmult_le_pos; cbn in *; lra).
    destruct (in_dec Nat.eq_dec n P) as [Hin|Hin].
    + destruct (in_split n P Hin) as (P1 & P2 & ->). pose proof (NoDup_remove _ _ _ ND) as [ND' Hni].
      rewrite (bigsum_perm RL _ (n :: P1 ++ P2)) by (apply Permutation_sym, Permutation_middle). rewrite bs_cons, fac_setf, Nat.eqb_refl by lia.
      assert (E : bs (P1 ++ P2) (fun m => fro2 (fac (setf G1 n Gn) m)) = bs (P1 ++ P2) (fun m => fro2 (fac G1 m))).
      { apply bs_ext. intros m Hm. rewrite fac_setf by lia. destruct (Nat.eqb_spec m n) as [->|]; [contradiction|auto]. }
      rewrite E. assert (A5 : bs (P1 ++ P2) (fun m => fro2 (fac G1 m)) <= T * (objective (lambda : Rnum) V W rk - objective (lambda : Rnum) V W1 rk)).
      { apply A4; auto. intros m Hm. assert (Hm' : In m (l ++ [n])) by (apply HP; apply in_or_app; apply in_app_or in Hm; destruct Hm; [left; auto|right; right; auto]).
        apply in_app_or in Hm'. destruct Hm' as [|[<-|[]]]; [auto|contradiction]. }
      clear - A5 B5. cbn in *. lra.
    + assert (E : bs P (fun m => fro2 (fac (setf G1 n Gn) m)) = bs P (fun m => fro2 (fac G1 m))).
      { apply bs_ext. intros m Hm. rewrite fac_setf by lia. destruct (Nat.eqb_spec m n) as [->|]; [contradiction|auto]. }
      rewrite E. assert (A5 : bs P (fun m => fro2 (fac G1 m)) <= T * (objective (lambda : Rnum) V W rk - objective (lambda : Rnum) V W1 rk)).
      { apply A4; auto. intros m Hm. specialize (HP m Hm). apply in_app_or in HP. destruct HP as [|[<-|[]]]; [auto|contradiction]. }
      clear - A5 B6. cbn in *. lra.
Qed.
End Modes.

Lemma map_fac_seq (G : list (tensor Rnum)) : map (fac G) (seq 0 (length G)) = G.
Proof.
  apply nth_ext with (d:=tnil) (d':=tnil); [rewrite map_length, seq_length; auto|]. intros i Hi. rewrite map_length, seq_length in Hi.
  rewrite (nth_map_lt _ _ _ 0%nat) by (rewrite seq_length; auto). rewrite seq_nth by auto. reflexivity.
Qed.
Lemma grad_norm_sq (V : tensor Rnum) G rk : mats_ok V G rk -> grad_norm G * grad_norm G = bs (seq 0 (order V)) (fun m => fro2 (fac G m)).
Proof.
  intros [HL HG]. unfold grad_norm. change (nsqrt (n:=Rnum)) with sqrt.
  assert (E : bs G (fun g => norm2 g * norm2 g) = bs (seq 0 (order V)) (fun m => fro2 (fac G m))).
  { rewrite <- HL. assert (EG : G = map (fac G) (seq 0 (length G))) by (symmetry; apply map_fac_seq).
    rewrite EG at 1. rewrite bigsum_map. apply bs_ext. intros m Hm. apply in_seq in Hm. apply (fro2_norm _ (nth m (lens V) 0%nat) rk). apply HG. lia. }
  change (sqrt (bs G (fun g => norm2 g * norm2 g)) * sqrt (bs G (fun g => norm2 g * norm2 g)) = bs (seq 0 (order V)) (fun m => fro2 (fac G m))).
  rewrite E. apply sqrt_sqrt. apply bigsum_nonneg. intros; apply fro2_nonneg.
Qed.
(** a sweep is the sequence of the updates of all modes *)
Lemma sweep_is_modes (V : tensor Rnum) F W G rk (lambda : R) solve : zero_mats V F rk -> length G = order V ->
  forall n, (n <= order V)%nat ->
  let st := ls_modes solve (lambda : Rnum) V rk (seq 0 n) (W, G) in
  fst st = als_upto solve (lambda : Rnum) V F rk n W /\ length (snd st) = order V /\
  forall m, (m < n)%nat -> fac (snd st) m = fac (als_grads solve (lambda : Rnum) V F rk W) m.
Proof.
  intros HF HG. assert (Er : forall W n, (n < order V)%nat -> als_rhs V F W rk n = mttkrp V W n rk).
  { intros W' n Hn. unfold als_rhs. apply (madd_zero_r RL _ _ (nth n (lens V) 0%nat) rk); [apply mttkrp_mat|]. intros; apply HF; auto. }
  induction n as [|n IH]; intros Hn st.
  - split; [reflexivity|]. split; [exact HG|]. intros m Hm. lia.
  - destruct (IH ltac:(lia)) as (E1 & E2 & E3). unfold st. rewrite seq_S, modes_snoc. cbn [plus].
    destruct (ls_modes solve (lambda : Rnum) V rk (seq 0 n) (W, G)) as [W1 G1]. cbn [fst snd ls_update] in *.
    unfold als_upto. rewrite seq_S, fold_left_app. cbn [plus fold_left]. fold (als_upto solve (lambda : Rnum) V F rk n W). rewrite <- E1.
    split; [unfold als_update; rewrite Er by lia; reflexivity|]. split; [rewrite setf_length; auto|]. intros m Hm. rewrite fac_setf by lia.
    destruct (Nat.eqb_spec m n) as [->|]; [|apply E3; lia]. unfold als_grads. rewrite fac_map_seq by lia. rewrite <- E1, Er by lia. reflexivity.
Qed.
