(** Bounds on the remainder of the pairwise-perturbation expansions, over the reals *)
From Coq Require Import List ZArith Lia Bool Arith Reals Lra Permutation.
From Verif Require Import Base Num NumR Tensor Spec Spec2 Spec7 Spec18 Spec20 MCommon PBase PTensor PSum PMttkrp PPart PMat PMatAlg PResid PGrad PRank PNormalize PALS
  PMono PMono2 PTree PDT PDTSweep PDrivers PPP PPPSweep PPPDriver PTtm PTucker PTuckMono PConv PConv2 PPPMulti.
Import ListNotations.
Local Open Scope R_scope.
Local Notation RL := Rnum_ring.
Local Notation bs := (bigsum (N:=Rnum)).
Local Notation bp := (bigprod (N:=Rnum)).

(** ** subsets *)
Fixpoint subsets (ms : list nat) : list (list nat) :=
  match ms with [] => [[]] | m :: ms => subsets ms ++ map (cons m) (subsets ms) end.
Definition mem (m : nat) (S : list nat) : bool := existsb (Nat.eqb m) S.
Definition pick {A} (S : list nat) (a b : nat -> A) (m : nat) : A := if mem m S then b m else a m.
Lemma subsets_incl ms S m : In S (subsets ms) -> mem m S = true -> In m ms.
Proof.
  revert S. induction ms as [|q ms IH]; intros S HS Hm; cbn in HS.
  - destruct HS as [<-|[]]. discriminate.
  - apply in_app_or in HS as [HS|HS]; [right; eauto|]. apply in_map_iff in HS as (S' & <- & HS). unfold mem in Hm. cbn in Hm.
    apply orb_true_iff in Hm as [Hm|Hm]; [left; symmetry; apply Nat.eqb_eq; auto|right; eapply IH; eauto].
Qed.
Lemma bs_app {X} (l1 l2 : list X) (f : X -> R) : bs (l1 ++ l2) f = bs l1 f + bs l2 f.
Proof. induction l1; [cbn [app]; change (bs [] f) with 0; lra|]. cbn [app]. rewrite !bs_cons, IHl1. lra. Qed.
Lemma bs_add {X} (l : list X) (f g : X -> R) : bs l (fun x => f x + g x) = bs l f + bs l g.
Proof. exact (bigsum_add RL l f g). Qed.
Lemma bs_map {X Y} (h : Y -> X) (l : list Y) (f : X -> R) : bs (map h l) f = bs l (fun y => f (h y)).
Proof. exact (bigsum_map (N:=Rnum) h l f). Qed.
Lemma bs_zero {X} (l : list X) (f : X -> R) : (forall x, In x l -> f x = 0) -> bs l f = 0.
Proof. intros H. exact (bigsum_zero RL l f H). Qed.
Lemma bp_ext {X} l (f g : X -> R) : (forall x, In x l -> f x = g x) -> bp l f = bp l g.
Proof. intros H. apply (bigprod_ext (N:=Rnum) l f g). exact H. Qed.

Lemma expand ms (a b : nat -> R) : NoDup ms ->
  bp ms (fun m => a m + b m) = bs (subsets ms) (fun S => bp ms (pick S a b)).
Proof.
  induction ms as [|m ms IH]; intros Hn; [cbn; lra|]. inversion Hn as [|x l Hnot Hnd]; subst. cbn [subsets].
  rewrite bs_app, bs_map, bp_cons, IH by auto.
  assert (E1 : bs (subsets ms) (fun S => bp (m :: ms) (pick S a b)) = a m * bs (subsets ms) (fun S => bp ms (pick S a b))).
  { rewrite <- bs_mul_l. apply bs_ext. intros S HS. rewrite bp_cons. f_equal. unfold pick. destruct (mem m S) eqn:E; auto. exfalso. apply Hnot. eapply subsets_incl; eauto. }
  assert (E2 : bs (subsets ms) (fun S => bp (m :: ms) (pick (m :: S) a b)) = b m * bs (subsets ms) (fun S => bp ms (pick S a b))).
  { rewrite <- bs_mul_l. apply bs_ext. intros S HS. rewrite bp_cons. f_equal.
    - unfold pick, mem. cbn. rewrite Nat.eqb_refl. auto.
    - apply bp_ext. intros q Hq. unfold pick, mem. cbn. destruct (Nat.eqb_spec q m); [subst; contradiction|auto]. }
  rewrite E1, E2. lra.
Qed.
Lemma empties ms (f : list nat -> R) : bs (subsets ms) (fun S => if (length S =? 0)%nat then f S else 0) = f [].
Proof.
  revert f. induction ms as [|m ms IH]; intros f; [cbn; lra|]. cbn [subsets]. rewrite bs_app, bs_map, IH.
  rewrite (bs_zero (subsets ms)); [lra|]. intros S _. reflexivity.
Qed.
Lemma singles ms (f : list nat -> R) : bs (subsets ms) (fun S => if (length S =? 1)%nat then f S else 0) = bs ms (fun m => f [m]).
Proof.
  revert f. induction ms as [|m ms IH]; intros f; [cbn; lra|]. cbn [subsets]. rewrite bs_app, bs_map, IH, bs_cons.
  rewrite <- (empties ms (fun S => f (m :: S))). cbn [length]. rewrite Rplus_comm. f_equal.
Qed.
Definition big_part ms (f : list nat -> R) : R := bs (subsets ms) (fun S => if (2 <=? length S)%nat then f S else 0).
Lemma split_sizes ms (f : list nat -> R) : bs (subsets ms) f = f [] + bs ms (fun m => f [m]) + big_part ms f.
Proof.
  rewrite <- (empties ms f), <- (singles ms f). unfold big_part. rewrite <- !bs_add. apply bs_ext. intros S _.
  destruct (length S) as [|[|n]]; cbn [Nat.eqb Nat.leb]; lra.
Qed.
Lemma big_part_le ms (f g : list nat -> R) : (forall S, In S (subsets ms) -> f S <= g S) -> big_part ms f <= big_part ms g.
Proof. intros H. apply bs_le. intros S HS. destruct (2 <=? length S)%nat; [auto|lra]. Qed.
Lemma second_order_eq ms (a d : nat -> R) : NoDup ms -> second_order ms a d = big_part ms (fun S => bp ms (pick S a d)).
Proof.
  intros Hn. unfold second_order. change (nadd (n:=Rnum)) with Rplus. rewrite (expand ms a d Hn). rewrite split_sizes.
  assert (E0 : bp ms (pick [] a d) = bp ms a) by (apply bp_ext; intros; reflexivity).
  assert (E1 : bs ms (fun m => bp ms (pick [m] a d)) = bs ms (fun m => bp ms (fun q => if Nat.eqb q m then d q else a q))).
  { apply bs_ext. intros m _. apply bp_ext. intros q _. unfold pick, mem. cbn. rewrite orb_false_r. auto. }
  rewrite E0, E1. lra.
Qed.
Lemma pick_nonneg S (a d : nat -> R) m : 0 <= a m -> 0 <= d m -> 0 <= pick S a d m.
Proof. unfold pick. destruct (mem m S); auto. Qed.
Lemma second_order_nonneg ms (a d : nat -> R) : NoDup ms -> (forall m, In m ms -> 0 <= a m) -> (forall m, In m ms -> 0 <= d m) -> 0 <= second_order ms a d.
Proof.
  intros Hn Ha Hd. rewrite second_order_eq by auto. apply bigsum_nonneg. intros S _. destruct (2 <=? length S)%nat; [|lra].
  apply bp_nonneg. intros m Hm. apply pick_nonneg; auto.
Qed.
Lemma bp_le {X} (l : list X) (f g : X -> R) : (forall x, In x l -> 0 <= f x <= g x) -> bp l f <= bp l g.
Proof.
  induction l as [|x l IH]; intros H; [cbn; lra|]. rewrite !bp_cons. assert (Hx : 0 <= f x <= g x) by (apply H; left; auto).
  apply Rmult_le_compat; try lra; [apply bp_nonneg; intros; apply H; right; auto|apply IH; intros; apply H; right; auto].
Qed.
Lemma second_order_mono ms (a a' d d' : nat -> R) : NoDup ms -> (forall m, In m ms -> 0 <= a m <= a' m) -> (forall m, In m ms -> 0 <= d m <= d' m) ->
  second_order ms a d <= second_order ms a' d'.
Proof.
  intros Hn Ha Hd. rewrite !second_order_eq by auto. apply big_part_le. intros S _. apply bp_le. intros m Hm. unfold pick. destruct (mem m S); auto.
Qed.
(** relative perturbations of size e *)
Lemma bp_const {X} (l : list X) c : bp l (fun _ => c) = c ^ length l.
Proof. induction l; [reflexivity|]. rewrite bp_cons, IHl. reflexivity. Qed.
Lemma bp_mul {X} (l : list X) (f g : X -> R) : bp l (fun x => f x * g x) = bp l f * bp l g.
Proof. exact (bigprod_mul RL l f g). Qed.
Lemma bs_const {X} (l : list X) c : bs l (fun _ => c) = INR (length l) * c.
Proof. induction l; [cbn; lra|]. rewrite bs_cons, IHl. cbn [length]. rewrite S_INR. lra. Qed.
Lemma second_order_scaled ms (a : nat -> R) e : NoDup ms ->
  second_order ms a (fun m => e * a m) = bp ms a * ((1 + e) ^ length ms - 1 - INR (length ms) * e).
Proof.
  intros Hn. unfold second_order. 
  assert (E1 : bp ms (fun m => a m + e * a m) = bp ms a * (1 + e) ^ length ms).
  { rewrite <- bp_const, <- bp_mul. apply bp_ext. intros; lra. }
  assert (E2 : bs ms (fun m => bp ms (fun q => if Nat.eqb q m then e * a q else a q)) = INR (length ms) * (e * bp ms a)).
  { rewrite <- bs_const. apply bs_ext. intros m Hm. clear E1. induction ms as [|q ms IH]; [destruct Hm|]. rewrite !bp_cons.
    inversion Hn as [|x l Hnot Hnd]; subst. destruct (Nat.eqb_spec q m) as [->|Hq].
    - rewrite (bp_ext ms _ a); [lra|]. intros q Hq. destruct (Nat.eqb_spec q m); [subst; contradiction|auto].
    - destruct Hm as [|Hm]; [congruence|]. rewrite IH by auto. lra. }
  change (nadd (n:=Rnum)) with Rplus. cbn [nmul Rnum car] in *. rewrite E1, E2. lra.
Qed.
Lemma binomial_tail e p : 0 <= e -> (1 + e) ^ p - 1 - INR p * e <= INR p * (INR p - 1) / 2 * (e * e) * (1 + e) ^ p.
Proof.
  intros He. induction p as [|p IH]; [cbn; lra|].
  replace ((1 + e) ^ S p - 1 - INR (S p) * e) with ((1 + e) * ((1 + e) ^ p - 1 - INR p * e) + INR p * (e * e)) by (rewrite S_INR; cbn [pow]; ring).
  assert (P1 : 1 <= (1 + e) ^ S p) by (apply pow_R1_Rle; lra).
  assert (Pp : 0 <= INR p) by apply pos_INR. assert (Pe : 0 <= e * e) by (apply Rmult_le_pos; auto).
  assert (K1 : (1 + e) * ((1 + e) ^ p - 1 - INR p * e) <= (1 + e) * (INR p * (INR p - 1) / 2 * (e * e) * (1 + e) ^ p)) by (apply Rmult_le_compat_l; lra).
  assert (K2 : INR p * (e * e) * 1 <= INR p * (e * e) * (1 + e) ^ S p) by (apply Rmult_le_compat_l; [apply Rmult_le_pos; auto|auto]).
  rewrite S_INR. cbn [pow] in *. lra.
Qed.

(** ** norms of functions on a list *)
Definition nrm {X} (L : list X) (g : X -> R) : R := sqrt (bs L (fun x => g x * g x)).
Lemma sq_sum_nonneg {X} (L : list X) (g : X -> R) : 0 <= bs L (fun x => g x * g x).
Proof. apply bigsum_nonneg. intros. apply Rle_0_sqr. Qed.
Lemma nrm_nonneg {X} (L : list X) g : 0 <= nrm L g.
Proof. apply sqrt_pos. Qed.
Lemma nrm_sq {X} (L : list X) g : nrm L g * nrm L g = bs L (fun x => g x * g x).
Proof. apply sqrt_sqrt. apply sq_sum_nonneg. Qed.
Lemma nrm_ext {X} (L : list X) (f g : X -> R) : (forall x, In x L -> f x = g x) -> nrm L f = nrm L g.
Proof. intros H. unfold nrm. f_equal. apply bs_ext. intros x Hx. rewrite H; auto. Qed.
Lemma minkowski {X} (L : list X) (f g : X -> R) : nrm L (fun x => f x + g x) <= nrm L f + nrm L g.
Proof.
  pose proof (nrm_nonneg L f) as F0. pose proof (nrm_nonneg L g) as G0. apply sq_le; [lra|]. rewrite nrm_sq.
  assert (C : bs L (fun x => f x * g x) <= nrm L f * nrm L g).
  { apply sq_le; [apply Rmult_le_pos; auto|]. replace (nrm L f * nrm L g * (nrm L f * nrm L g)) with ((nrm L f * nrm L f) * (nrm L g * nrm L g)) by ring.
    rewrite !nrm_sq. apply cauchy. }
  assert (E : bs L (fun x => (f x + g x) * (f x + g x)) = bs L (fun x => f x * f x) + 2 * bs L (fun x => f x * g x) + bs L (fun x => g x * g x)).
  { rewrite <- bs_mul_l, <- !bs_add. apply bs_ext. intros; ring. }
  rewrite E, <- (nrm_sq L f), <- (nrm_sq L g). lra.
Qed.
Lemma nrm_zero {X} (L : list X) : nrm L (fun _ => 0) = 0.
Proof. unfold nrm. rewrite bs_zero; [apply sqrt_0|intros; ring]. Qed.
Lemma minkowski_sum {X Y} (L : list X) (l : list Y) (f : Y -> X -> R) : nrm L (fun x => bs l (fun y => f y x)) <= bs l (fun y => nrm L (f y)).
Proof.
  induction l as [|y l IH].
  - change (nrm L (fun _ => 0) <= 0). rewrite nrm_zero. apply Rle_refl.
  - rewrite bs_cons. eapply Rle_trans; [apply (minkowski L (f y) (fun x => bs l (fun y => f y x)))|]. lra.
Qed.

(** ** the abstract bound *)
Lemma remainder_bound {X} (L : list X) ms (a d : nat -> R) (C : R) (F : list nat -> X -> R) (g : X -> R) : NoDup ms ->
  (forall x, In x L -> g x = bs (subsets ms) (fun S => F S x)) ->
  (forall S, In S (subsets ms) -> nrm L (F S) <= C * bp ms (pick S a d)) ->
  nrm L (fun x => g x - (F [] x + bs ms (fun m => F [m] x))) <= C * second_order ms a d.
Proof.
  intros Hn Hg HF.
  rewrite (nrm_ext L _ (fun x => bs (subsets ms) (fun S => if (2 <=? length S)%nat then F S x else 0))).
  2:{ intros x Hx. rewrite Hg by auto. rewrite (split_sizes ms (fun S => F S x)). unfold big_part. lra. }
  eapply Rle_trans; [apply (minkowski_sum L (subsets ms) (fun S x => if (2 <=? length S)%nat then F S x else 0))|].
  rewrite second_order_eq by auto. unfold big_part. rewrite <- bs_mul_l. apply bs_le. intros S HS. destruct (2 <=? length S)%nat.
  - exact (HF S HS).
  - rewrite nrm_zero. lra.
Qed.

(** ** tensors *)
Lemma norm2_nrm (T : tensor Rnum) : wf T -> norm2 T = nrm (all_idx (lens T)) (at_ T).
Proof. intros H. rewrite norm2_sumsq by auto. reflexivity. Qed.
Lemma norm2_tabulate ls (f : list nat -> R) : norm2 (tabulate (N:=Rnum) ls f) = nrm (all_idx ls) f.
Proof. rewrite norm2_nrm by apply tabulate_wf. cbn [lens tabulate]. apply nrm_ext. intros x Hx. apply all_idx_in in Hx. apply (at_tabulate (N:=Rnum) ls f x). auto. Qed.
Lemma sum_idx2 r c (f : list nat -> R) : bs (all_idx [r; c]) f = bs (seq 0 c) (fun k => bs (seq 0 r) (fun i => f [i; k])).
Proof.
  cbn [all_idx]. rewrite (bigsum_flat_map RL), (bigsum_flat_map RL). rewrite bs_cons. change (bs [] ?g) with 0. rewrite Rplus_0_r, bs_map.
  apply bs_ext. intros j _. rewrite bs_map. reflexivity.
Qed.
Lemma norm2_mat (A : tensor Rnum) r c : is_mat A r c -> norm2 A * norm2 A = bs (seq 0 c) (fun k => bs (seq 0 r) (fun i => el A i k * el A i k)).
Proof. intros [HL HW]. rewrite norm2_nrm, nrm_sq, HL by auto. apply (sum_idx2 r c (fun x => at_ A x * at_ A x)). Qed.
Lemma norm2_pos (T : tensor Rnum) : 0 <= norm2 T.
Proof. apply sqrt_pos. Qed.

Section Cp.
Context (V : tensor Rnum) (rk n : nat).
Let o := order V.
Hypothesis Ho : (2 <= o)%nat.
Hypothesis Hn : (n < o)%nat.
Hypothesis HV : wf V.
Lemma mttkrp_col W k : bs (seq 0 (nth n (lens V) 0%nat)) (fun i => mttkrp_at V W n i k * mttkrp_at V W n i k)
  <= norm2 V * norm2 V * bp (others n o) (fun m => bs (seq 0 (nth m (lens V) 0%nat)) (fun a => el (fac W m) a k * el (fac W m) a k)).
Proof.
  set (Q := bp (others n o) (fun m => bs (seq 0 (nth m (lens V) 0%nat)) (fun a => el (fac W m) a k * el (fac W m) a k))).
  rewrite norm2_nrm, nrm_sq by auto. rewrite (sum_fibers RL (lens V) n (fun x => at_ V x * at_ V x)) by exact Hn.
  rewrite <- bs_mul_r. apply bs_le. intros i Hi. apply in_seq in Hi. unfold mttkrp_at. fold o.
  eapply Rle_trans; [apply cauchy|]. apply Rmult_le_compat_l; [apply sq_sum_nonneg|]. apply Req_le.
  unfold Q, o, order. rewrite <- (fiber_prod RL (lens V) n i) by (auto; lia). apply bs_ext. intros x _. symmetry. apply bp_mul.
Qed.
Lemma mttkrp_norm W : (forall m, (m < o)%nat -> m <> n -> is_mat (fac W m) (nth m (lens V) 0%nat) rk) ->
  norm2 (mttkrp V W n rk) <= norm2 V * bp (others n o) (fun m => norm2 (fac W m)).
Proof.
  intros HW. pose proof (norm2_pos V) as V0.
  assert (P0 : 0 <= bp (others n o) (fun m => norm2 (fac W m))) by (apply bp_nonneg; intros; apply norm2_pos).
  apply sq_le; [apply Rmult_le_pos; auto|]. rewrite (norm2_mat _ (nth n (lens V) 0%nat) rk) by (split; [reflexivity|apply tabulate_wf]).
  apply Rle_trans with (bs (seq 0 rk) (fun k => norm2 V * norm2 V * bp (others n o) (fun m => bs (seq 0 (nth m (lens V) 0%nat)) (fun a => el (fac W m) a k * el (fac W m) a k)))).
  - apply bs_le. intros k Hk. apply in_seq in Hk. eapply Rle_trans; [|apply mttkrp_col]. apply Req_le. apply bs_ext. intros i Hi. apply in_seq in Hi.
    rewrite el_mttkrp by lia. reflexivity.
  - rewrite bs_mul_l. replace (norm2 V * bp (others n o) (fun m => norm2 (fac W m)) * (norm2 V * bp (others n o) (fun m => norm2 (fac W m))))
      with (norm2 V * norm2 V * (bp (others n o) (fun m => norm2 (fac W m)) * bp (others n o) (fun m => norm2 (fac W m)))) by (change (car Rnum) with R; ring).
    apply Rmult_le_compat_l; [apply Rmult_le_pos; auto|]. rewrite <- bp_mul.
    eapply Rle_trans; [apply (sum_prod_le (others n o) (seq 0 rk) (fun m k => bs (seq 0 (nth m (lens V) 0%nat)) (fun a => el (fac W m) a k * el (fac W m) a k)))|].
    + intros E. pose proof (others_length n o Hn) as L. rewrite E in L. cbn in L. lia.
    + intros. apply sq_sum_nonneg.
    + apply Req_le. apply bp_ext. intros m Hm. apply others_in in Hm as [Hm1 Hm2]. symmetry. apply norm2_mat. apply HW; auto.
Qed.
(** factors chosen by a subset *)
Definition mix (S : list nat) (W0 dW : list (tensor Rnum)) : list (tensor Rnum) := map (pick S (fac W0) (fac dW)) (seq 0 o).
Lemma fac_mix S W0 dW m : (m < o)%nat -> fac (mix S W0 dW) m = pick S (fac W0) (fac dW) m.
Proof. intros Hm. unfold mix. apply fac_map_seq. auto. Qed.

Theorem pp_mttkrp_error W0 dW : mats_ok V W0 rk -> mats_ok V dW rk ->
  norm2 (msub (mttkrp V (perturbed W0 dW) n rk) (pp_mttkrp V W0 dW n rk))
  <= norm2 V * second_order (others n o) (fun m => norm2 (fac W0 m)) (fun m => norm2 (fac dW m)).
Proof.
  intros HW HD. unfold msub. rewrite norm2_tabulate. set (len := nth n (lens V) 0%nat). cbn [mttkrp tabulate lens].
  set (F := fun S (x : list nat) => mttkrp_at V (mix S W0 dW) n (nth 0 x 0%nat) (nth 1 x 0%nat)).
  rewrite (nrm_ext _ _ (fun x => mttkrp_at V (perturbed W0 dW) n (nth 0 x 0%nat) (nth 1 x 0%nat) - (F [] x + bs (others n o) (fun m => F [m] x)))).
  - apply (remainder_bound _ (others n o) _ _ _ F (fun x => mttkrp_at V (perturbed W0 dW) n (nth 0 x 0%nat) (nth 1 x 0%nat))).
    + apply others_nodup.
    + intros x Hx. apply all_idx_in in Hx. apply inb2_inv in Hx as (i & k & -> & Hi & Hk). cbn [nth]. unfold F. cbn [nth]. unfold mttkrp_at. fold o. rewrite (bigsum_swap RL).
      apply bs_ext. intros x Hx. apply filter_In in Hx as [Hx _]. apply all_idx_in in Hx. rewrite bs_mul_l. change (nmul (n:=Rnum)) with Rmult. f_equal.
      rewrite (bp_ext _ _ (fun m => el (fac W0 m) (nth m x 0%nat) k + el (fac dW m) (nth m x 0%nat) k)).
      * rewrite expand by apply others_nodup. apply bs_ext. intros S _. apply bp_ext. intros m Hm. apply others_in in Hm as [Hm _]. rewrite fac_mix by auto.
        unfold pick. destruct (mem m S); auto.
      * intros m Hm. apply others_in in Hm as [Hm _]. unfold perturbed. replace (length W0) with o by (symmetry; apply HW). rewrite fac_map_seq by auto.
        exact (el_madd (N:=Rnum) _ _ (nth m (lens V) 0%nat) rk _ _ (proj2 HW m Hm) (inb_nth _ _ m Hx Hm) Hk).
    + intros S _. eapply Rle_trans; [apply Req_le; symmetry; exact (norm2_tabulate [len; rk] (F S))|].
      change (norm2 (mttkrp V (mix S W0 dW) n rk) <= norm2 V * bp (others n o) (pick S (fun m => norm2 (fac W0 m)) (fun m => norm2 (fac dW m)))).
      eapply Rle_trans; [apply mttkrp_norm|].
      * intros m Hm Hne. rewrite fac_mix by auto. unfold pick. destruct (mem m S); [apply HD|apply HW]; auto.
      * apply Req_le. f_equal. apply bp_ext. intros m Hm. apply others_in in Hm as [Hm _]. rewrite fac_mix by auto. unfold pick. destruct (mem m S); auto.
  - intros x Hx. apply all_idx_in in Hx. pose proof Hx as Hx'. apply inb2_inv in Hx as (i & k & -> & Hi & Hk). cbn [nth]. change (at_ ?A [i; k]) with (el A i k).
    rewrite el_mttkrp by auto. rewrite el_pp by auto. fold o. change (nsub (n:=Rnum)) with Rminus. change (nadd (n:=Rnum)) with Rplus.
    assert (LW : length W0 = o) by apply HW.
    f_equal. unfold F. cbn [nth]. f_equal.
    + apply mttkrp_other_only; auto. intros m Hm _. rewrite fac_mix by auto. reflexivity.
    + apply bs_ext. intros q Hq. apply others_in in Hq as [Hq1 Hq2]. apply (mttkrp_other_only (N:=Rnum)); auto. intros m Hm _. rewrite fac_mix by auto.
      rewrite fac_setf by lia. unfold pick, mem. cbn. rewrite orb_false_r. destruct (Nat.eqb_spec m q); subst; auto.
Qed.
End Cp.

Section Tk.
Context (V : tensor Rnum) (ranks : list nat) (n : nat).
Let o := order V.
Hypothesis Hn : (n < o)%nat.
Hypothesis HV : wf V.
Hypothesis HR : length ranks = o.
Definition shaped (W : list (tensor Rnum)) : Prop := length W = o /\ forall m, (m < o)%nat -> is_mat (fac W m) (nth m (lens V) 0%nat) (nth m ranks 0%nat).
Let lsY := map (fun m => if Nat.eqb m n then nth n (lens V) 0%nat else nth m ranks 0%nat) (seq 0 o).
Lemma mem_others m : (m < o)%nat -> existsb (Nat.eqb m) (others n o) = negb (Nat.eqb m n).
Proof.
  intros Hm. destruct (Nat.eqb_spec m n) as [->|Hne]; cbn.
  - destruct (existsb (Nat.eqb n) (others n o)) eqn:E; auto. apply existsb_exists in E as (x & Hx & E). apply Nat.eqb_eq in E. subst. apply others_in in Hx. tauto.
  - apply existsb_exists. exists m. split; [apply others_in; auto|apply Nat.eqb_refl].
Qed.
Lemma lens_Y W : shaped W -> ttmc_lens V W (others n o) = lsY.
Proof.
  intros [_ HW]. unfold ttmc_lens, lsY. fold o. apply map_ext_in. intros m Hm. apply in_seq in Hm. rewrite mem_others by lia.
  destruct (Nat.eqb_spec m n); cbn [negb]; [subst; auto|]. apply (is_mat_ncol _ _ _ (HW m ltac:(lia))).
Qed.
Lemma lsY_len : length lsY = o.
Proof. unfold lsY. rewrite map_length, seq_length. auto. Qed.
Lemma lsY_nth m : (m < o)%nat -> nth m lsY 0%nat = if Nat.eqb m n then nth n (lens V) 0%nat else nth m ranks 0%nat.
Proof. intros Hm. unfold lsY. rewrite (nth_map_lt _ _ _ 0%nat) by (rewrite seq_length; auto). rewrite seq_nth by auto. reflexivity. Qed.
Definition tval (u : nat -> nat -> nat -> R) (y : list nat) : R :=
  bs (filter (fun x => Nat.eqb (nth n x 0%nat) (nth n y 0%nat)) (all_idx (lens V))) (fun x => at_ V x * bp (others n o) (fun m => u m (nth m x 0%nat) (nth m y 0%nat))).
Lemma ttmc_tval W y : ttmc_at V W (others n o) y = tval (fun m => el (fac W m)) y.
Proof.
  unfold ttmc_at, tval. fold o. f_equal. apply filter_ext. intros x.
  destruct (Nat.eqb_spec (nth n x 0%nat) (nth n y 0%nat)) as [E|E].
  - apply forallb_forall. intros m Hm. apply in_seq in Hm. rewrite mem_others by lia. destruct (Nat.eqb_spec m n); cbn; auto. subst. apply Nat.eqb_eq. auto.
  - apply not_true_is_false. intros H. rewrite forallb_forall in H. specialize (H n). rewrite mem_others, Nat.eqb_refl in H by auto. cbn in H.
    apply E. apply Nat.eqb_eq. apply H. apply in_seq. lia.
Qed.
Lemma tval_norm (u : nat -> nat -> nat -> R) :
  bs (all_idx lsY) (fun y => tval u y * tval u y)
  <= norm2 V * norm2 V * bp (others n o) (fun m => bs (seq 0 (nth m ranks 0%nat)) (fun k => bs (seq 0 (nth m (lens V) 0%nat)) (fun a => u m a k * u m a k))).
Proof.
  set (v := fun i => bs (filter (fun x => Nat.eqb (nth n x 0%nat) i) (all_idx (lens V))) (fun x => at_ V x * at_ V x)).
  set (c := fun m k => bs (seq 0 (nth m (lens V) 0%nat)) (fun a => u m a k * u m a k)).
  apply Rle_trans with (bs (all_idx lsY) (fun y => v (nth n y 0%nat) * bp (others n o) (fun m => c m (nth m y 0%nat)))).
  { apply bs_le. intros y Hy. apply all_idx_in in Hy. assert (Hyn : (nth n y 0 < nth n (lens V) 0)%nat).
    { assert (H := inb_nth lsY y n Hy). rewrite lsY_len, lsY_nth, Nat.eqb_refl in H by auto. apply H. auto. }
    unfold tval. eapply Rle_trans; [apply cauchy|]. apply Rmult_le_compat_l; [apply sq_sum_nonneg|]. apply Req_le. unfold c, o, order.
    rewrite <- (fiber_prod RL (lens V) n (nth n y 0%nat) (fun m a => u m a (nth m y 0%nat) * u m a (nth m y 0%nat))) by auto.
    apply bs_ext. intros x _. symmetry. apply bp_mul. }
  rewrite (sum_fibers RL lsY n) by (rewrite lsY_len; auto). rewrite lsY_nth, Nat.eqb_refl by auto.
  rewrite norm2_nrm, nrm_sq by auto. rewrite (sum_fibers RL (lens V) n (fun x => at_ V x * at_ V x)) by exact Hn. rewrite <- bs_mul_r.
  apply bs_le. intros i Hi. apply in_seq in Hi. apply Req_le.
  transitivity (bs (filter (fun y => Nat.eqb (nth n y 0%nat) i) (all_idx lsY)) (fun y => v i * bp (others n o) (fun m => c m (nth m y 0%nat)))).
  { apply bs_ext. intros y Hy. apply filter_In in Hy as [_ Hy]. apply Nat.eqb_eq in Hy. rewrite Hy. auto. }
  rewrite bs_mul_l. change (v i * bs (filter (fun y => Nat.eqb (nth n y 0%nat) i) (all_idx lsY)) (fun y => bp (others n o) (fun m => c m (nth m y 0%nat)))
    = v i * bp (others n o) (fun m => bs (seq 0 (nth m ranks 0%nat)) (c m))). f_equal.
  pose proof (fiber_prod RL lsY n i c) as E. rewrite lsY_len, lsY_nth, Nat.eqb_refl in E by auto. etransitivity; [apply E; lia|].
  apply bp_ext. intros m Hm. apply others_in in Hm as [Hm1 Hm2]. rewrite lsY_nth by auto. destruct (Nat.eqb_spec m n); [contradiction|]. reflexivity.
Qed.
Lemma tval_nrm W : shaped W -> nrm (all_idx lsY) (tval (fun m => el (fac W m))) <= norm2 V * bp (others n o) (fun m => norm2 (fac W m)).
Proof.
  intros [_ HW]. assert (P0 : 0 <= bp (others n o) (fun m => norm2 (fac W m))) by (apply bp_nonneg; intros; apply norm2_pos).
  apply sq_le; [apply Rmult_le_pos; auto; apply norm2_pos|]. rewrite nrm_sq. eapply Rle_trans; [apply tval_norm|]. apply Req_le.
  replace (norm2 V * bp (others n o) (fun m => norm2 (fac W m)) * (norm2 V * bp (others n o) (fun m => norm2 (fac W m))))
      with (norm2 V * norm2 V * (bp (others n o) (fun m => norm2 (fac W m)) * bp (others n o) (fun m => norm2 (fac W m)))) by (change (car Rnum) with R; ring).
  f_equal. rewrite <- bp_mul. apply bp_ext. intros m Hm. apply others_in in Hm as [Hm1 Hm2]. symmetry. apply norm2_mat. auto.
Qed.
Lemma shaped_mix S W0 dW : shaped W0 -> shaped dW -> shaped (mix V S W0 dW).
Proof.
  intros H0 Hd. split; [unfold mix; rewrite map_length, seq_length; auto|]. intros m Hm. rewrite fac_mix by auto. unfold pick. destruct (mem m S); [apply Hd|apply H0]; auto.
Qed.
Theorem pp_ttmc_error W0 dW : shaped W0 -> shaped dW ->
  norm2 (msub (ttmc V (perturbed W0 dW) (others n o)) (pp_ttmc V W0 dW n))
  <= norm2 V * second_order (others n o) (fun m => norm2 (fac W0 m)) (fun m => norm2 (fac dW m)).
Proof.
  intros HW HD. assert (LW : length W0 = o) by apply HW.
  assert (HM : shaped (perturbed W0 dW)).
  { split; [unfold perturbed; rewrite map_length, seq_length; auto|]. intros m Hm. unfold perturbed. rewrite LW, fac_map_seq by auto.
    destruct (proj2 HW m Hm) as [E _]. split; [exact E|apply tabulate_wf]. }
  unfold msub. rewrite norm2_tabulate. cbn [ttmc tabulate lens]. rewrite lens_Y by auto.
  set (F := fun S (y : list nat) => tval (fun m => el (fac (mix V S W0 dW) m)) y).
  rewrite (nrm_ext _ _ (fun y => tval (fun m => el (fac (perturbed W0 dW) m)) y - (F [] y + bs (others n o) (fun m => F [m] y)))).
  - apply (remainder_bound _ (others n o) _ _ _ F (fun y => tval (fun m => el (fac (perturbed W0 dW) m)) y)).
    + apply others_nodup.
    + intros y Hy. apply all_idx_in in Hy. unfold F, tval. rewrite (bigsum_swap RL).
      apply bs_ext. intros x Hx. apply filter_In in Hx as [Hx _]. apply all_idx_in in Hx. rewrite bs_mul_l. change (nmul (n:=Rnum)) with Rmult. f_equal.
      rewrite (bp_ext _ _ (fun m => el (fac W0 m) (nth m x 0%nat) (nth m y 0%nat) + el (fac dW m) (nth m x 0%nat) (nth m y 0%nat))).
      * rewrite expand by apply others_nodup. apply bs_ext. intros S _. apply bp_ext. intros m Hm. apply others_in in Hm as [Hm _]. rewrite fac_mix by auto.
        unfold pick. destruct (mem m S); auto.
      * intros m Hm. apply others_in in Hm as [Hm Hne]. unfold perturbed. rewrite LW. rewrite fac_map_seq by auto.
        assert (Hym : (nth m y 0 < nth m ranks 0)%nat).
        { pose proof (inb_nth lsY y m Hy) as H. rewrite lsY_len, lsY_nth in H by auto. destruct (Nat.eqb_spec m n); [contradiction|]. auto. }
        exact (el_madd (N:=Rnum) _ _ (nth m (lens V) 0%nat) _ _ _ (proj2 HW m Hm) (inb_nth _ _ m Hx Hm) Hym).
    + intros S _. unfold F. eapply Rle_trans; [apply tval_nrm; apply shaped_mix; auto|].
      apply Req_le. f_equal. apply bp_ext. intros m Hm. apply others_in in Hm as [Hm _]. rewrite fac_mix by auto. unfold pick. destruct (mem m S); auto.
  - intros y Hy. apply all_idx_in in Hy. unfold ttmc at 1. rewrite at_tabulate by (rewrite lens_Y by auto; auto). unfold pp_ttmc. fold o.
    rewrite at_tabulate by (rewrite lens_Y by auto; auto). unfold ttmc at 1. rewrite at_tabulate by (rewrite lens_Y by auto; auto).
    change (nsub (n:=Rnum)) with Rminus. change (nadd (n:=Rnum)) with Rplus. f_equal; [apply ttmc_tval|]. f_equal.
    + rewrite ttmc_tval. unfold F, tval. apply bs_ext. intros x _. f_equal. apply bp_ext. intros m Hm. apply others_in in Hm as [Hm _]. rewrite fac_mix by auto. reflexivity.
    + apply bs_ext. intros q Hq. apply others_in in Hq as [Hq1 Hq2].
      assert (HS : shaped (setf W0 q (fac dW q))).
      { split; [rewrite setf_length; auto|]. intros m Hm. rewrite fac_setf by lia. destruct (Nat.eqb_spec m q); [subst; apply HD; auto|apply HW; auto]. }
      unfold ttmc. rewrite at_tabulate by (rewrite lens_Y by auto; auto). rewrite ttmc_tval. unfold F, tval. apply bs_ext. intros x _. f_equal.
      apply bp_ext. intros m Hm. apply others_in in Hm as [Hm _]. rewrite fac_mix by auto.
      rewrite fac_setf by lia. unfold pick, mem. cbn. rewrite orb_false_r. destruct (Nat.eqb_spec m q); subst; auto.
Qed.
End Tk.
