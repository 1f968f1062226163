(** Over the reals: sweeps of the pairwise-perturbation Tucker method lose little core norm *)
From Coq Require Import List ZArith Lia Bool Arith Reals Lra Permutation.
From Verif Require Import Base Num NumR Tensor Spec Spec7 Spec8 Spec9 Spec12 Spec18 Spec20 Spec24 MCommon MCP PBase PTensor PSum PPart PMat PMatAlg PMttkrp PGrad PResid PTtm PTucker PSign PTSweep PTuckFit PKyFan
  PTuckMono PRank PNormalize PALS PMono PMono2 PTree PDT PDTSweep PDrivers PPP PPPSweep PPPDriver PConv PConv2 PPPMulti PErr PErr2 PTuckPP.
Import ListNotations.
Local Open Scope R_scope.
Local Notation RL := Rnum_ring.
Local Notation bs := (bigsum (N:=Rnum)).
Local Notation bp := (bigprod (N:=Rnum)).

Lemma madd_msub (A U : tensor Rnum) r k : is_mat A r k -> is_mat U r k -> madd A (msub U A) = U.
Proof.
  intros HA HU. assert (HS : is_mat (msub U A) r k) by (destruct HU as [L _]; split; [exact L|apply tabulate_wf]).
  apply (mat_ext _ _ r k); [apply madd_mat; auto|auto|]. intros i j Hi Hj. rewrite (el_madd A _ r k) by auto.
  rewrite (el_msub U A r k) by auto. set (u := el U i j). set (a := el A i j). clearbody u a. change (car Rnum) with R in *. change (a + (u - a) = u). ring.
Qed.
Lemma norm_ortho (U : tensor Rnum) r k : is_mat U r k -> ortho_cols U k -> norm2 U = sqrt (INR k).
Proof.
  intros HU HO. assert (E : norm2 U * norm2 U = INR k).
  { rewrite (norm2_mat U r k HU). rewrite <- (Rmult_1_r (INR k)), <- (sm_const k 1). apply sm_ext. intros j Hj.
    change (sm r (fun i => el U i j * el U i j) = 1). rewrite (ortho_sm U r k HU HO) by auto. unfold dl. rewrite Nat.eqb_refl. reflexivity. }
  rewrite <- E. symmetry. apply sqrt_square. apply norm2_pos.
Qed.

Section Upd.
Context (V : tensor Rnum) (ranks : list nat).
Let o := order V.
Hypothesis Hr : ranks_ok (lens V) ranks.
Hypothesis HV : wf V.
Lemma shaped_ok W : shaped V ranks W -> tucker_ok V W ranks.
Proof. intros [H1 H2]. split; auto. split; auto. split; [apply Hr|auto]. Qed.
Lemma ok_shaped W : tucker_ok V W ranks -> shaped V ranks W.
Proof. intros (_ & H1 & _ & H2). split; auto. Qed.
Lemma perturbed_shaped W0 dW : shaped V ranks W0 -> shaped V ranks (perturbed W0 dW).
Proof.
  intros HW. assert (LW : length W0 = o) by apply HW. split; [unfold perturbed; rewrite map_length, seq_length; auto|]. intros m Hm.
  unfold perturbed. rewrite LW, fac_map_seq by auto. destruct (proj2 HW m Hm) as [E _]. split; [exact E|apply tabulate_wf].
Qed.
Lemma perturbed_setf W0 dW n U : shaped V ranks W0 -> length dW = o -> (n < o)%nat -> is_mat U (nth n (lens V) 0%nat) (nth n ranks 0%nat) ->
  perturbed W0 (setf dW n (msub U (fac W0 n))) = setf (perturbed W0 dW) n U.
Proof.
  intros HW LD Hn HU. assert (LW : length W0 = o) by apply HW. assert (LP : forall d, length (perturbed W0 d) = o) by (intros; unfold perturbed; rewrite map_length, seq_length; auto).
  apply (list_fac_ext _ _ o); [apply LP|rewrite setf_length; apply LP|]. intros m Hm. rewrite fac_setf by (rewrite LP; lia).
  unfold perturbed. rewrite LW, !fac_map_seq by auto. rewrite fac_setf by lia. destruct (Nat.eqb_spec m n) as [->|]; auto.
  apply (madd_msub _ _ (nth n (lens V) 0%nat) (nth n ranks 0%nat)); auto. apply HW. auto.
Qed.
Lemma perturbed_zero W0 : shaped V ranks W0 -> perturbed W0 (zfacs V ranks) = W0.
Proof.
  intros HW. assert (LW : length W0 = o) by apply HW. apply (list_fac_ext _ _ o); [unfold perturbed; rewrite map_length, seq_length; auto|auto|]. intros m Hm.
  unfold perturbed. rewrite LW, fac_map_seq by auto. unfold zfacs. fold o. rewrite fac_map_seq by auto.
  pose proof (proj2 HW m Hm) as HM. apply (mat_ext _ _ (nth m (lens V) 0%nat) (nth m ranks 0%nat)); [apply madd_mat; auto|auto|]. intros i j Hi Hj.
  rewrite (el_madd _ _ (nth m (lens V) 0%nat) (nth m ranks 0%nat)) by auto. unfold zeros, el at 2. rewrite at_tabulate by (apply inb2; auto).
  set (a := el (fac W0 m) i j). clearbody a. change (car Rnum) with R in *. change (a + 0 = a). ring.
Qed.
Lemma zfacs_shaped : shaped V ranks (zfacs V ranks).
Proof.
  split; [unfold zfacs; rewrite map_length, seq_length; auto|]. intros m Hm. unfold zfacs. rewrite fac_map_seq by auto. split; [reflexivity|apply tabulate_wf].
Qed.
Lemma zfacs_norm m : (m < o)%nat -> norm2 (fac (zfacs V ranks) m) = 0.
Proof.
  intros Hm. unfold zfacs. rewrite fac_map_seq by auto. unfold zeros. rewrite norm2_tabulate. change (nrm (all_idx [nth m (lens V) 0%nat; nth m ranks 0%nat]) (fun _ => 0) = 0). apply nrm_zero.
Qed.

(** the update of one mode *)
Section One.
Context (W0 dW : list (tensor Rnum)) (n : nat) (U : tensor Rnum).
Hypothesis HW0 : shaped V ranks W0.
Hypothesis HO0 : ortho_factors W0 ranks.
Hypothesis HdW : shaped V ranks dW.
Hypothesis Hn : (n < o)%nat.
Hypothesis HU : lead_cols U (unfold_gram (pp_ttmc V W0 dW n) n) (nth n (lens V) 0%nat) (nth n ranks 0%nat).
Let W := perturbed W0 dW.
Lemma U_ortho : is_mat U (nth n (lens V) 0%nat) (nth n ranks 0%nat) /\ ortho_cols U (nth n ranks 0%nat).
Proof. apply (lead_ortho U _ _ _ (proj2 (proj2 Hr n Hn)) HU). Qed.
Lemma Ya_lens : lens (pp_ttmc V W0 dW n) = lens (ttmc V W (others n o)).
Proof.
  assert (HR : length ranks = o) by apply Hr. cbn [pp_ttmc ttmc tabulate lens]. fold o. unfold o in *.
  rewrite (lens_Y V ranks n Hn HR W0 HW0). rewrite (lens_Y V ranks n Hn HR W (perturbed_shaped W0 dW HW0)). reflexivity.
Qed.
Lemma core_setf P : norm2 (tucker_core V (setf W n P)) = norm2 (ttm (ttmc V W (others n o)) P n).
Proof.
  assert (LW : (n < length W)%nat) by (unfold W; rewrite (proj1 (perturbed_shaped W0 dW HW0)); exact Hn).
  rewrite (core_ttm RL V _ n Hn), ttmc_others_setf by auto. rewrite fac_setf, Nat.eqb_refl by auto. reflexivity.
Qed.
Theorem update_core P : is_mat P (nth n (lens V) 0%nat) (nth n ranks 0%nat) -> ortho_cols P (nth n ranks 0%nat) ->
  norm2 (tucker_core V (setf W n P)) <= norm2 (tucker_core V (setf W n U)) + 2 * norm2 V * second_order (others n o) (fun _ => 1) (fun m => norm2 (fac dW m)).
Proof.
  intros HP HO. rewrite !core_setf.
  assert (L : nth n (lens (ttmc V W (others n o))) 0%nat = nth n (lens V) 0%nat) by (apply (request_lens V W n Hn)).
  assert (A : norm2 (ttm (ttmc V W (others n o)) P n) <= norm2 (ttm (ttmc V W (others n o)) U n) + 2 * norm2 (msub (ttmc V W (others n o)) (pp_ttmc V W0 dW n))).
  { apply (approx_best _ _ _ _ n (nth n ranks 0%nat)); try rewrite L; auto.
    - apply Ya_lens.
    - rewrite ttmc_order. auto.
    - apply Hr. auto. }
  pose proof (pp_ttmc_error_ortho V ranks n Hn HV (proj1 Hr) W0 dW HW0 HdW HO0) as B. fold o W in B.
  set (x := norm2 (ttm (ttmc V W (others n o)) P n)) in *. set (y := norm2 (ttm (ttmc V W (others n o)) U n)) in *.
  set (e := norm2 (msub _ _)) in *. set (v := norm2 V) in *. set (q := second_order _ _ _) in *. clearbody x y e v q. change (car Rnum) with R in *. lra.
Qed.
(** the core computed from the expansion *)
Lemma core_close : Rabs (norm2 (ttm (pp_ttmc V W0 dW n) U n) - norm2 (tucker_core V (setf W n U)))
  <= norm2 V * second_order (others n o) (fun _ => 1) (fun m => norm2 (fac dW m)).
Proof.
  rewrite core_setf. destruct U_ortho as [HM HO].
  assert (L : nth n (lens (ttmc V W (others n o))) 0%nat = nth n (lens V) 0%nat) by (apply (request_lens V W n Hn)).
  destruct (ttm_close (ttmc V W (others n o)) (pp_ttmc V W0 dW n) U n (nth n ranks 0%nat)) as [A1 A2]; try rewrite L; auto.
  - apply Ya_lens.
  - rewrite ttmc_order. auto.
  - pose proof (pp_ttmc_error_ortho V ranks n Hn HV (proj1 Hr) W0 dW HW0 HdW HO0) as B. fold o W in B.
    set (x := norm2 (ttm (ttmc V W (others n o)) U n)) in *. set (y := norm2 (ttm (pp_ttmc V W0 dW n) U n)) in *.
    set (e := norm2 (msub _ _)) in *. set (v := norm2 V * second_order _ _ _) in *. clearbody x y e v. change (car Rnum) with R in *. apply Rabs_le. lra.
Qed.
End One.

(** cores and residuals *)
Lemma core_bound W : tucker_ok V W ranks -> ortho_factors W ranks -> norm2 (tucker_core V W) <= norm2 V.
Proof. intros H HO. rewrite !norm2_sumsq by (auto; apply core_wf). apply sqrt_le_1_alt. apply (core_le V W ranks); auto. Qed.
Lemma norm2_sq (T : tensor Rnum) : wf T -> norm2 T * norm2 T = sumsq T.
Proof. intros H. rewrite norm2_sumsq by auto. apply sqrt_sqrt. apply sumsq_nonneg. Qed.
Lemma resid_sq W : tucker_ok V W ranks -> ortho_factors W ranks ->
  tucker_resid V W * tucker_resid V W + norm2 (tucker_core V W) * norm2 (tucker_core V W) = norm2 V * norm2 V.
Proof.
  intros H HO. rewrite tucker_resid_sqrt, !norm2_sq by (auto; apply core_wf). rewrite sqrt_sqrt by apply sumsq_nonneg. apply (resid_of_core V W ranks); auto.
Qed.
Lemma resid_pos W : 0 <= tucker_resid V W.
Proof. apply norm2_pos. Qed.
Lemma sq_gap (r r' c c' v x : R) : 0 <= c -> 0 <= c' -> c <= v -> c' <= v -> 0 <= v -> 0 <= x -> r * r + c * c = v * v -> r' * r' + c' * c' = v * v ->
  c <= c' + 2 * v * x -> r' * r' <= r * r + 4 * x * (v * v).
Proof.
  intros H1 H2 H3 H4 H5 H6 E1 E2 H. assert (K : c * c - c' * c' <= 4 * x * (v * v)); [|lra].
  destruct (Rle_lt_dec c c') as [L|L].
  - assert (c * c <= c' * c') by (apply Rmult_le_compat; auto). assert (0 <= x * (v * v)) by (apply Rmult_le_pos; auto; apply Rmult_le_pos; auto). lra.
  - replace (c * c - c' * c') with ((c - c') * (c + c')) by ring. apply Rle_trans with ((2 * v * x) * (2 * v)); [|apply Req_le; ring].
    apply Rmult_le_compat; lra.
Qed.
Theorem resid_of_loss W W' x : tucker_ok V W ranks -> ortho_factors W ranks -> tucker_ok V W' ranks -> ortho_factors W' ranks -> 0 <= x ->
  norm2 (tucker_core V W) <= norm2 (tucker_core V W') + 2 * norm2 V * x ->
  tucker_resid V W' * tucker_resid V W' <= tucker_resid V W * tucker_resid V W + 4 * x * (norm2 V * norm2 V).
Proof.
  intros H HO H' HO' Hx Hc. apply (sq_gap _ _ (norm2 (tucker_core V W)) (norm2 (tucker_core V W'))); auto using core_bound, resid_sq; apply norm2_pos.
Qed.

(** one sweep *)
Section Sweep.
Context (svd : tensor Rnum -> nat -> tensor Rnum * tensor Rnum * tensor Rnum) (W0 W dW : list (tensor Rnum)).
Hypothesis HW0 : shaped V ranks W0.
Hypothesis HO0 : ortho_factors W0 ranks.
Hypothesis HdW : shaped V ranks dW.
Hypothesis EW : W = perturbed W0 dW.
Hypothesis HO : ortho_factors W ranks.
Hypothesis Hl : tpp_leading svd V ranks W0 W dW.
Notation T := (tpp_upto svd V ranks W0).
Lemma T_S n st : T (S n) st = tpp_update svd V ranks W0 (T n st) n.
Proof. unfold tpp_upto. rewrite seq_S, fold_left_app. reflexivity. Qed.
Let Un n := aligned (lsv svd (unfold_gram (pp_ttmc V W0 (snd (T n (W, dW))) n) n) (nth n ranks 0%nat)) (fac W0 n).
Lemma T_next n : T (S n) (W, dW) = (setf (fst (T n (W, dW))) n (Un n), setf (snd (T n (W, dW))) n (msub (Un n) (fac W0 n))).
Proof. rewrite T_S. unfold Un. destruct (T n (W, dW)) as [A B]. reflexivity. Qed.
Lemma U_lead n : (n < o)%nat -> lead_cols (Un n) (unfold_gram (pp_ttmc V W0 (snd (T n (W, dW))) n) n) (nth n (lens V) 0%nat) (nth n ranks 0%nat).
Proof. intros Hn. apply lead_aligned. apply leading_lead. apply Hl. auto. Qed.
Lemma T_inv n : (n <= o)%nat -> shaped V ranks (snd (T n (W, dW))) /\ fst (T n (W, dW)) = perturbed W0 (snd (T n (W, dW))) /\ ortho_factors (fst (T n (W, dW))) ranks.
Proof.
  induction n as [|n IH]; intros Hn; [split; [exact HdW|split; [exact EW|exact HO]]|].
  destruct IH as (I1 & I2 & I3); [lia|]. rewrite T_next. cbn [fst snd].
  destruct (lead_ortho _ _ _ _ (proj2 (proj2 Hr n Hn)) (U_lead n Hn)) as [HM HC].
  assert (L2 : length (snd (T n (W, dW))) = o) by apply I1.
  assert (L1 : length (fst (T n (W, dW))) = o) by (rewrite I2; apply (perturbed_shaped W0 (snd (T n (W, dW))) HW0)).
  split; [|split].
  - split; [rewrite setf_length; auto|]. intros m Hm. rewrite fac_setf by lia. destruct (Nat.eqb_spec m n) as [->|]; [|apply I1; auto].
    destruct HM as [L _]. split; [exact L|apply tabulate_wf].
  - rewrite I2 at 1. symmetry. apply perturbed_setf; auto.
  - intros m Hm. rewrite setf_length in Hm. rewrite fac_setf by lia. destruct (Nat.eqb_spec m n) as [->|]; auto.
Qed.
Lemma T_snd n m : (n <= o)%nat -> (m < o)%nat -> fac (snd (T n (W, dW))) m = fac (if (m <? n)%nat then snd (T o (W, dW)) else dW) m.
Proof.
  intros Hn Hm.
  assert (G : forall a b, (a <= b <= o)%nat -> (m < a)%nat -> fac (snd (T b (W, dW))) m = fac (snd (T a (W, dW))) m).
  { intros a b Hab Ha. induction b as [|b IH]; [lia|]. destruct (Nat.eq_dec a (S b)) as [->|]; auto. rewrite T_next. cbn [snd].
    assert (L2 : length (snd (T b (W, dW))) = o) by apply (T_inv b ltac:(lia)). rewrite fac_setf by lia. destruct (Nat.eqb_spec m b); [lia|]. apply IH. lia. }
  destruct (Nat.ltb_spec m n) as [L|L]; [symmetry; apply G; lia|].
  clear G. induction n as [|n IH]; [reflexivity|]. rewrite T_next. cbn [snd].
  assert (L2 : length (snd (T n (W, dW))) = o) by apply (T_inv n ltac:(lia)). rewrite fac_setf by lia. destruct (Nat.eqb_spec m n); [lia|]. apply IH; lia.
Qed.
Let dW' := snd (T o (W, dW)).
Lemma T_core n : (n < o)%nat -> norm2 (tucker_core V (fst (T n (W, dW)))) <= norm2 (tucker_core V (fst (T (S n) (W, dW)))) +
  2 * norm2 V * second_order (others n o) (fun _ => 1) (in_effect dW dW' n).
Proof.
  intros Hn. destruct (T_inv n ltac:(lia)) as (I1 & I2 & I3). rewrite T_next. cbn [fst].
  assert (L1 : length (fst (T n (W, dW))) = o) by (rewrite I2; apply (perturbed_shaped W0 (snd (T n (W, dW))) HW0)).
  rewrite <- (setf_self (fst (T n (W, dW))) n) at 1 by lia. rewrite I2 at 1 3.
  assert (B := update_core W0 (snd (T n (W, dW))) n (Un n) HW0 HO0 I1 Hn (U_lead n Hn) (fac (fst (T n (W, dW))) n)).
  replace (second_order (others n o) (fun _ => 1) (fun m => norm2 (fac (snd (T n (W, dW))) m))) with (second_order (others n o) (fun _ => 1) (in_effect dW dW' n)) in B.
  - apply B; [rewrite I2; apply (perturbed_shaped W0 _ HW0); auto|apply I3; lia].
  - unfold second_order, in_effect. assert (Q : forall m, In m (others n o) -> norm2 (fac (if (m <? n)%nat then dW' else dW) m) = norm2 (fac (snd (T n (W, dW))) m)).
    { intros m Hm. apply others_in in Hm as [Hm _]. rewrite (T_snd n m) by (auto; lia). reflexivity. }
    f_equal; [f_equal|].
    + apply bp_ext. intros m Hm. rewrite Q by auto. reflexivity.
    + apply bs_ext. intros m Hm. apply bp_ext. intros q Hq. destruct (Nat.eqb_spec q m); auto.
Qed.
Theorem sweep_core_loss : norm2 (tucker_core V W) <= norm2 (tucker_core V (fst (tpp_sweep svd V ranks W0 (W, dW)))) +
  2 * norm2 V * sweep_loss o dW (snd (tpp_sweep svd V ranks W0 (W, dW))).
Proof.
  unfold tpp_sweep. fold o. fold dW'. unfold sweep_loss.
  assert (G : forall n, (n <= o)%nat -> norm2 (tucker_core V W) <= norm2 (tucker_core V (fst (T n (W, dW)))) +
     2 * norm2 V * bs (seq 0 n) (fun n => second_order (others n o) (fun _ => 1) (in_effect dW dW' n))); [|apply G; lia].
  induction n as [|n IH]; intros Hn.
  - change (bs (seq 0 0) ?f) with 0. rewrite Rmult_0_r, Rplus_0_r. apply Rle_refl.
  - rewrite seq_S, bs_app, bs_cons. change (bs [] ?f) with 0. specialize (IH ltac:(lia)). pose proof (T_core n Hn) as B. cbn [plus].
    set (x := norm2 (tucker_core V W)) in *. set (y := norm2 (tucker_core V (fst (T n (W, dW))))) in *. set (z := norm2 (tucker_core V (fst (T (S n) (W, dW))))) in *.
    set (v := norm2 V) in *. set (S1 := bs _ _) in *. set (s2 := second_order _ _ _) in *. clearbody x y z v S1 s2. change (car Rnum) with R in *. lra.
Qed.
End Sweep.

(** within the guard *)
Lemma guard_small (e : R) (W dW : list (tensor Rnum)) rmax m : 0 <= e -> tucker_ok V W ranks -> ortho_factors W ranks -> (forall m, (m < o)%nat -> (nth m ranks 0 <= rmax)%nat) ->
  too_far (N:=Rnum) V (e : Rnum) W dW = false -> (m < o)%nat -> norm2 (fac dW m) <= e * sqrt (INR rmax).
Proof.
  intros He (_ & LW & _ & HM) HO Hmax HT Hm. pose proof (too_far_false V e W dW m HT Hm) as L. rewrite rel_change_R in L.
  rewrite (norm_ortho (fac W m) _ _ (HM m Hm)) in L by (apply HO; rewrite LW; auto).
  assert (R1 : 1 <= INR (nth m ranks 0%nat)) by (change 1 with (INR 1); apply le_INR; apply Hr; auto).
  apply Rle_trans with (e * sqrt (INR (nth m ranks 0%nat))).
  - apply div_le_R; auto; [apply sqrt_lt_R0; lra|apply norm2_pos].
  - apply Rmult_le_compat_l; auto. apply sqrt_le_1_alt. apply le_INR. apply Hmax. auto.
Qed.
Lemma loss_guard (dW dW' : list (tensor Rnum)) (h : R) : (forall m, (m < o)%nat -> norm2 (fac dW m) <= h) -> (forall m, (m < o)%nat -> norm2 (fac dW' m) <= h) ->
  sweep_loss o dW dW' <= INR o * guard_loss o h.
Proof.
  intros H H'. unfold sweep_loss. rewrite <- (seq_length o 0) at 2. rewrite <- bs_const. apply bs_le. intros n Hn. apply in_seq in Hn.
  eapply Rle_trans; [apply (second_order_mono (others n o) _ (fun _ => 1) _ (fun _ => h * 1))|].
  - apply others_nodup.
  - intros; lra.
  - intros m Hm. apply others_in in Hm as [Hm _]. unfold in_effect. split; [apply norm2_pos|]. rewrite Rmult_1_r. destruct (m <? n)%nat; auto.
  - rewrite (second_order_scaled (others n o) (fun _ => 1) h) by apply others_nodup. rewrite bp_const, pow1, others_length by lia. unfold guard_loss. lra.
Qed.
Lemma guard_loss_nonneg h : 0 <= h -> 0 <= guard_loss o h.
Proof.
  intros Hh. unfold guard_loss. generalize (o - 1)%nat. intros p. induction p as [|p IH]; [cbn; lra|].
  replace ((1 + h) ^ S p - 1 - INR (S p) * h) with ((1 + h) * ((1 + h) ^ p - 1 - INR p * h) + INR p * (h * h)) by (rewrite S_INR; cbn [pow]; ring).
  assert (0 <= INR p * (h * h)) by (apply Rmult_le_pos; [apply pos_INR|apply Rmult_le_pos; auto]).
  assert (0 <= (1 + h) * ((1 + h) ^ p - 1 - INR p * h)) by (apply Rmult_le_pos; lra). lra.
Qed.
Lemma sweep_loss_nonneg dW dW' : 0 <= sweep_loss o dW dW'.
Proof.
  apply bigsum_nonneg. intros n _. apply second_order_nonneg; [apply others_nodup|intros; lra|intros; apply norm2_pos].
Qed.
End Upd.
