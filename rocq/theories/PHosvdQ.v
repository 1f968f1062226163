(** Quality of the truncated higher-order singular value decomposition: at most [order] times the best squared error *)
From Coq Require Import List ZArith Lia Bool Arith Reals Lra Permutation Ring.
From Verif Require Import Base Num NumR Tensor Spec Spec7 Spec8 Spec18 PBase PTensor PSum PPart PMat PMatAlg PMttkrp PGrad PResid PTtm PTucker PSign PTSweep PTuckFit PKyFan PTuckMono.
Import ListNotations.

Section Ring.
Context {N : num} (RL : ring_laws N).
Let RT : ring_theory (@n0 N) n1 nadd nmul nsub nopp (@eq N) := RL.
Add Ring Nring : RT.
Local Open Scope num_scope.
Implicit Types (V T : tensor N) (W : list (tensor N)).

(** *** commuting contractions *)
Lemma ttmc_single T A n W : wf T -> (n < order T)%nat -> fac W n = A -> ttm T A n = ttmc T W [n].
Proof. intros HT Hn <-. rewrite <- (ttm_ttmc RL) by (auto; intros []). rewrite (ttmc_nil RL) by auto. auto. Qed.
Lemma ttm_order T A n : order (ttm T A n) = order T.
Proof. unfold order. rewrite ttm_lens, lset_length. auto. Qed.
Lemma ttm_comm T A B n m : wf T -> (n < order T)%nat -> (m < order T)%nat -> n <> m -> ttm (ttm T A n) B m = ttm (ttm T B m) A n.
Proof.
  intros HT Hn Hm Hne. set (F := setf (setf (repeat tnil (order T)) n A) m B).
  assert (Hl : length (repeat (tnil : tensor N) (order T)) = order T) by apply repeat_length.
  assert (Fn : fac F n = A). { unfold F. rewrite fac_setf by (rewrite setf_length; lia). destruct (Nat.eqb_spec n m); [lia|]. rewrite fac_setf by lia. rewrite Nat.eqb_refl. auto. }
  assert (Fm : fac F m = B). { unfold F. rewrite fac_setf by (rewrite setf_length; lia). rewrite Nat.eqb_refl. auto. }
  rewrite (ttmc_single T A n F), (ttmc_single T B m F) by auto. transitivity (ttm (ttmc T F [n]) (fac F m) m); [rewrite Fm; auto|]. transitivity (ttm (ttmc T F [m]) (fac F n) n); [|rewrite Fn; auto].
  rewrite !(ttm_ttmc RL) by (auto; intros [E|[]]; lia). apply (ttmc_perm RL). apply perm_swap.
Qed.
Lemma ttmc_ttm V W A n ms : wf V -> (n < order V)%nat -> NoDup ms -> (forall m, In m ms -> (m < order V)%nat /\ m <> n) ->
  ttmc (ttm V A n) W ms = ttm (ttmc V W ms) A n.
Proof.
  intros HV Hn Hd Hms. induction ms as [|m ms IH]; [rewrite !(ttmc_nil RL) by (auto; apply ttm_wf); auto|].
  inversion Hd as [|? ? Hm Hd']; subst. destruct (Hms m) as [Hmo Hmn]; [left; auto|].
  rewrite <- !(ttm_ttmc RL) by (rewrite ?ttm_order; auto). rewrite IH; auto; [|intros q Hq; apply Hms; right; auto].
  apply ttm_comm; rewrite ?ttmc_order; auto. apply ttmc_wf.
Qed.
(** *** the part that a projection removes *)
Definition cproj (U : tensor N) (l k : nat) : tensor N :=
  mk l l (fun a b => (if Nat.eqb a b then n1 else n0) - bigsum (seq 0 k) (fun j => el U a j * el U b j)).
Lemma sumsq_gram T n : (n < order T)%nat -> sumsq T = bigsum (seq 0 (nth n (lens T) 0%nat)) (fun a => el (unfold_gram T n) a a).
Proof.
  intros Hn. unfold sumsq. rewrite (fiber_shift RL (lens T) n) by auto. rewrite (bigsum_swap RL). apply bigsum_ext. intros a Ha. apply in_seq in Ha.
  unfold unfold_gram, el. rewrite at_tabulate by (apply inb2; lia). reflexivity.
Qed.
Lemma sumsq_proj T U n k : (n < order T)%nat -> is_mat U (nth n (lens T) 0%nat) k -> ortho_cols U k ->
  sumsq (ttm T (cproj U (nth n (lens T) 0%nat) k) n) = sumsq T - sumsq (ttm T U n).
Proof.
  intros Hn HU HO. set (l := nth n (lens T) 0%nat) in *. set (Q := cproj U l k). set (G := unfold_gram T n).
  assert (HQ : is_mat Q l l) by apply mk_mat.
  rewrite (sumsq_ttm RL T Q n l Hn HQ), (sumsq_ttm RL T U n k Hn HU), (sumsq_gram T n Hn). fold l G.
  set (p := fun a b => bigsum (seq 0 k) (fun j => el U a j * el U b j)).
  (* Q Q^T = Q *)
  assert (QQ : forall a b, (a < l)%nat -> (b < l)%nat -> bigsum (seq 0 l) (fun j => el Q a j * el Q b j) = (if Nat.eqb a b then n1 else n0) - p a b).
  { intros a b Ha Hb.
    transitivity (bigsum (seq 0 l) (fun j => ((if Nat.eqb j a then (if Nat.eqb b j then n1 else n0) else n0) - (if Nat.eqb j a then p b j else n0))
       - ((if Nat.eqb j b then p a j else n0) - p a j * p b j))).
    - apply bigsum_ext. intros j Hj. apply in_seq in Hj. unfold Q, cproj. rewrite !el_mk by lia. fold (p a j) (p b j).
      rewrite (Nat.eqb_sym j a), (Nat.eqb_sym j b). destruct (Nat.eqb a j), (Nat.eqb b j); ring.
    - rewrite !(bigsum_sub RL). rewrite !(PResid.bigsum_delta RL) by auto.
      assert (PP : bigsum (seq 0 l) (fun j => p a j * p b j) = p a b).
      { unfold p. transitivity (bigsum (seq 0 l) (fun j => bigsum (seq 0 k) (fun i => bigsum (seq 0 k) (fun i' => (el U a i * el U b i') * (el U j i * el U j i'))))).
        - apply bigsum_ext. intros j _. rewrite <- (bigsum_mul_r RL). apply bigsum_ext. intros i _. rewrite <- (bigsum_mul_l RL). apply bigsum_ext. intros i' _. ring.
        - rewrite (bigsum_swap RL). apply bigsum_ext. intros i Hi. apply in_seq in Hi. rewrite (bigsum_swap RL).
          transitivity (bigsum (seq 0 k) (fun i' => if Nat.eqb i' i then el U a i * el U b i' else n0)).
          + apply bigsum_ext. intros i' Hi'. apply in_seq in Hi'. rewrite (bigsum_mul_l RL), (ortho_gram U l k HU HO) by lia.
            rewrite (Nat.eqb_sym i i'). destruct (Nat.eqb i' i); ring.
          + apply (PResid.bigsum_delta RL). lia. }
      rewrite PP. replace (p b a) with (p a b).
      + rewrite (Nat.eqb_sym b a). ring.
      + unfold p. apply bigsum_ext. intros j _. ring. }
  transitivity (bigsum (seq 0 l) (fun a => bigsum (seq 0 l) (fun b => el G a b * bigsum (seq 0 l) (fun j => el Q a j * el Q b j)))).
  { rewrite (bigsum_swap RL). apply bigsum_ext. intros a _. rewrite (bigsum_swap RL). apply bigsum_ext. intros b _.
    rewrite <- (bigsum_mul_l RL). apply bigsum_ext. intros j _. ring. }
  transitivity (bigsum (seq 0 l) (fun a => el G a a - bigsum (seq 0 l) (fun b => el G a b * p a b))).
  { apply bigsum_ext. intros a Ha. apply in_seq in Ha. rewrite <- (PResid.bigsum_delta RL a l (fun b => el G a b)) by lia. rewrite <- (bigsum_sub RL).
    apply bigsum_ext. intros b Hb. apply in_seq in Hb. rewrite QQ by lia. rewrite (Nat.eqb_sym a b). destruct (Nat.eqb b a); ring. }
  rewrite (bigsum_sub RL). f_equal. rewrite (bigsum_swap RL). 
  transitivity (bigsum (seq 0 l) (fun a => bigsum (seq 0 l) (fun b => bigsum (seq 0 k) (fun j => el U a j * el G a b * el U b j)))).
  - rewrite (bigsum_swap RL). apply bigsum_ext. intros a _. apply bigsum_ext. intros b _. unfold p. rewrite <- (bigsum_mul_l RL). apply bigsum_ext. intros j _. ring.
  - erewrite bigsum_ext by (intros a _; apply (bigsum_swap RL)). apply (bigsum_swap RL).
Qed.

(** *** for given orthonormal factors the core V x W^T is the best one *)
Definition core_gap V W (C : tensor N) (ranks : list nat) : N :=
  bigsum (all_idx ranks) (fun y => (at_ (tucker_core V W) y - at_ C y) * (at_ (tucker_core V W) y - at_ C y)).
Lemma full_gen_lens V W C ranks : tucker_ok V W ranks -> lens C = ranks -> lens (tucker_full C W) = lens V.
Proof.
  intros H HC. pose proof H as (_ & HL & Hr & HW). assert (Ho : order C = order V) by (unfold order in *; congruence).
  unfold tucker_full. rewrite Ho. cbn [ttmc tabulate lens]. apply nth_eq_ext with (d:=0%nat); [rewrite ttmc_lens_length, Ho; auto|].
  rewrite ttmc_lens_length, Ho. intros m Hm. rewrite ttmc_lens_nth by (rewrite Ho; auto).
  rewrite existsb_yes by (apply in_seq; lia). rewrite fac_mtrans by lia. cbn [mtrans tabulate ncol lens nth].
  apply (is_mat_nrow _ _ _ (HW m Hm)).
Qed.
Lemma full_gen_at V W C ranks x : tucker_ok V W ranks -> lens C = ranks -> inb (lens V) x ->
  at_ (tucker_full C W) x = bigsum (all_idx ranks) (fun y => at_ C y * tpr (order V) W x y).
Proof.
  intros H HC Hx. pose proof H as (_ & HL & Hr & HW). assert (Ho : order C = order V) by (unfold order in *; congruence).
  unfold tucker_full. rewrite (ttmc_all_at RL).
  2:{ pose proof (full_gen_lens V W C ranks H HC) as E. unfold tucker_full in E. cbn [ttmc tabulate lens] in E. rewrite E. auto. }
  rewrite HC, Ho. apply bigsum_ext. intros y Hy. apply all_idx_in in Hy. f_equal.
  unfold tpr. apply bigprod_ext. intros m Hm. apply in_seq in Hm. rewrite fac_mtrans by lia.
  apply (el_mtrans _ _ _ _ _ (HW m ltac:(lia))); apply inb_nth; auto; unfold order in *; lia.
Qed.
Theorem best_core V W C ranks : tucker_ok V W ranks -> ortho_factors W ranks -> lens C = ranks ->
  sumsq (msub (tucker_full C W) V) = tucker_resid2 V W + core_gap V W C ranks.
Proof.
  intros H HO HC. set (F := tucker_full C W). assert (L : lens F = lens V) by (apply (full_gen_lens V W C ranks); auto).
  rewrite (fit_identity RL V W ranks H HO). unfold sumsq at 1. cbn [msub tabulate lens]. rewrite L.
  transitivity (bigsum (all_idx (lens V)) (fun x => (at_ F x * at_ F x - at_ V x * at_ F x) - (at_ V x * at_ F x - at_ V x * at_ V x))).
  { apply bigsum_ext. intros x Hx. apply all_idx_in in Hx. unfold msub. rewrite at_tabulate by (rewrite L; auto). ring. }
  rewrite !(bigsum_sub RL). fold (sumsq V).
  assert (VF : bigsum (all_idx (lens V)) (fun x => at_ V x * at_ F x) = bigsum (all_idx ranks) (fun y => at_ (tucker_core V W) y * at_ C y)).
  { transitivity (bigsum (all_idx (lens V)) (fun x => bigsum (all_idx ranks) (fun y => at_ C y * (at_ V x * tpr (order V) W x y)))).
    - apply bigsum_ext. intros x Hx. apply all_idx_in in Hx. unfold F. rewrite (full_gen_at V W C ranks x) by auto. rewrite <- (bigsum_mul_l RL). apply bigsum_ext. intros y _. ring.
    - rewrite (bigsum_swap RL). apply bigsum_ext. intros y Hy. apply all_idx_in in Hy. unfold tucker_core. rewrite (ttmc_all_at RL).
      2:{ pose proof (core_lens V W ranks H) as E. unfold tucker_core in E. cbn [ttmc tabulate lens] in E. rewrite E. auto. }
      rewrite (bigsum_mul_l RL). ring. }
  assert (FF : bigsum (all_idx (lens V)) (fun x => at_ F x * at_ F x) = bigsum (all_idx ranks) (fun y => at_ C y * at_ C y)).
  { transitivity (bigsum (all_idx (lens V)) (fun x => bigsum (all_idx ranks) (fun y => bigsum (all_idx ranks) (fun z =>
       (at_ C y * at_ C z) * (tpr (order V) W x y * tpr (order V) W x z))))).
    - apply bigsum_ext. intros x Hx. apply all_idx_in in Hx. unfold F. rewrite (full_gen_at V W C ranks x) by auto.
      rewrite <- (bigsum_mul_r RL). apply bigsum_ext. intros y _. rewrite <- (bigsum_mul_l RL). apply bigsum_ext. intros z _. ring.
    - rewrite (bigsum_swap RL). apply bigsum_ext. intros y Hy. rewrite (bigsum_swap RL).
      transitivity (bigsum (all_idx ranks) (fun z => if list_eq_dec Nat.eq_dec y z then at_ C y * at_ C z else n0)).
      + apply bigsum_ext. intros z Hz. rewrite (bigsum_mul_l RL). rewrite (tpr_gram RL V W ranks) by (auto; apply all_idx_in; auto).
        destruct (list_eq_dec Nat.eq_dec y z); ring.
      + rewrite (bigsum_single RL _ _ y); auto.
        * destruct (list_eq_dec Nat.eq_dec y y); [auto|congruence].
        * apply all_idx_nodup.
        * intros z _ Hz. destruct (list_eq_dec Nat.eq_dec y z); [congruence|auto]. }
  rewrite VF, FF. unfold core_gap.
  transitivity (sumsq V - sumsq (tucker_core V W) + (bigsum (all_idx ranks) (fun y => (at_ (tucker_core V W) y * at_ (tucker_core V W) y - at_ (tucker_core V W) y * at_ C y)
     - (at_ (tucker_core V W) y * at_ C y - at_ C y * at_ C y)))).
  - rewrite !(bigsum_sub RL). unfold sumsq at 3. rewrite (core_lens V W ranks H). ring.
  - f_equal. apply bigsum_ext. intros y _. ring.
Qed.
End Ring.

Local Open Scope R_scope.
Local Notation RL := Rnum_ring.
Lemma bessel (T U : tensor Rnum) n k : (n < order T)%nat -> is_mat U (nth n (lens T) 0%nat) k -> ortho_cols U k -> sumsq (ttm T U n) <= sumsq T.
Proof.
  intros Hn HU HO. pose proof (sumsq_proj RL T U n k Hn HU HO) as E. pose proof (sumsq_nonneg (ttm T (cproj U (nth n (lens T) 0%nat) k) n)) as P.
  rewrite E in P. change (0 <= sumsq T - sumsq (ttm T U n)) in P. lra.
Qed.
Lemma bessel_all (T : tensor Rnum) W (ranks : list nat) ms : wf T -> NoDup ms ->
  (forall m, In m ms -> (m < order T)%nat /\ is_mat (fac W m) (nth m (lens T) 0%nat) (nth m ranks 0%nat) /\ ortho_cols (fac W m) (nth m ranks 0%nat)) ->
  sumsq (ttmc T W ms) <= sumsq T.
Proof.
  intros HT Hd H. induction ms as [|m ms IH]; [rewrite (ttmc_nil RL) by auto; apply Rle_refl|].
  inversion Hd as [|? ? Hm Hd']; subst. destruct (H m) as (Hmo & HM & HO); [left; auto|].
  rewrite <- (ttm_ttmc RL) by auto. eapply Rle_trans; [|apply IH; auto; intros q Hq; apply H; right; auto].
  apply (bessel _ _ m (nth m ranks 0%nat)); auto; [rewrite ttmc_order; auto|]. cbn [ttmc tabulate lens]. rewrite ttmc_lens_nth, existsb_not by auto. auto.
Qed.
(** the best rank-k projection of one mode *)
Lemma gram_sym (Y : tensor Rnum) n a b : (a < nth n (lens Y) 0)%nat -> (b < nth n (lens Y) 0)%nat -> el (unfold_gram Y n) a b = el (unfold_gram Y n) b a.
Proof.
  intros Ha Hb. unfold unfold_gram, el. rewrite !at_tabulate by (apply inb2; auto). cbn [nth]. unfold unfold_gram_at. apply bigsum_ext. intros x _. cbn. ring.
Qed.
Lemma gram_psd (Y : tensor Rnum) n (x : nat -> R) : (n < order Y)%nat ->
  0 <= sm (nth n (lens Y) 0%nat) (fun a => sm (nth n (lens Y) 0%nat) (fun b => x a * el (unfold_gram Y n) a b * x b)).
Proof.
  intros Hn. set (l := nth n (lens Y) 0%nat). set (X := mk (N:=Rnum) l 1 (fun a _ => x a)).
  pose proof (sumsq_ttm RL Y X n 1 Hn (mk_mat _ _ _)) as E. fold l in E. pose proof (sumsq_nonneg (ttm Y X n)) as P. rewrite E in P. clear E.
  set (f := fun j : nat => _) in P. change (0 <= sm 1 f) in P. rewrite sm_S, sm_0, Rplus_0_l in P. unfold f in P.
  replace (sm l (fun a => sm l (fun b => x a * el (unfold_gram Y n) a b * x b))) with
    (sm l (fun a => sm l (fun b => el X a 0 * el (unfold_gram Y n) a b * el X b 0))); [exact P|].
  apply sm_ext. intros a Ha. apply sm_ext. intros b Hb. unfold X. rewrite !el_mk by auto. reflexivity.
Qed.
Theorem best_ttm (Y U : tensor Rnum) n k : (n < order Y)%nat -> (k <= nth n (lens Y) 0)%nat -> lead_cols U (unfold_gram Y n) (nth n (lens Y) 0%nat) k ->
  ortho_cols U k /\ forall P, is_mat P (nth n (lens Y) 0%nat) k -> ortho_cols P k -> sumsq (ttm Y P n) <= sumsq (ttm Y U n).
Proof.
  intros Hn Hk (Uf & s & VT & sg & Hsvd & Hs & Hd & Hsg & HU & HUe). set (l := nth n (lens Y) 0%nat) in *. set (G := unfold_gram Y n) in *.
  pose proof Hsvd as (HUf & Ls & Ws & HVT & E & O1 & O2 & O3 & O4). split.
  - apply (gram_ortho U l k HU). intros a b Ha Hb.
    transitivity (sm l (fun i => (sg a * sg b) * (el Uf i a * el Uf i b))).
    + apply sm_ext. intros i Hi. rewrite !HUe by auto. cbn. ring.
    + rewrite sm_l. rewrite (ortho_sm Uf l l HUf O1) by lia. unfold PKyFan.dl. destruct (Nat.eqb_spec a b) as [->|]; cbn; [destruct (Hsg b) as [-> | ->]|]; ring.
  - intros P HP HO. assert (C : forall A, is_mat A l k -> sumsq (ttm Y A n) = qtr l (el G) k (el A)) by (intros A HA; rewrite (sumsq_ttm RL Y A n k Hn HA); reflexivity).
    rewrite !C by auto. replace (qtr l (el G) k (el U)) with (qtr l (el G) k (el Uf)).
    2:{ unfold qtr. apply sm_ext. intros j Hj. apply sm_ext. intros a Ha. apply sm_ext. intros b Hb. rewrite !HUe by auto. destruct (Hsg j) as [-> | ->]; ring. }
    apply (kyfan l (el G) (el Uf) (el VT) (fun i => at_ s [i])).
    + intros a b Ha Hb. apply gram_sym; auto.
    + intros x. apply gram_psd; auto.
    + intros a b Ha Hb. rewrite E. assert (HD : is_mat (mmul Uf (mdiag l (fun i => at_ s [i]))) l l) by (eapply mmul_mat; [exact HUf|apply mdiag_mat]).
      rewrite (el_mmul _ _ l l l a b HD HVT) by auto. apply sm_ext. intros i Hi. rewrite (mmul_diag_r RL Uf l l) by auto. rewrite el_mk by auto. reflexivity.
    + intros i j Hi Hj. apply (ortho_sm Uf l l); auto.
    + intros i j Hi Hj. apply (ortho_rows Uf l l); auto.
    + intros i j Hi Hj. apply (ortho_rows VT l l); auto.
    + exact Hs.
    + exact Hd.
    + exact Hk.
    + intros i j Hi Hj. apply (ortho_sm P l k); auto.
Qed.

Section HQ.
Context (V : tensor Rnum) (W : list (tensor Rnum)) (ranks : list nat).
Hypothesis HW : tucker_ok V W ranks.
Hypothesis HO : ortho_factors W ranks.
Let loss n := sumsq V - sumsq (ttm V (fac W n) n).
Lemma telescope n : (n <= order V)%nat -> sumsq V - sumsq (ttmc V W (rev (seq 0 n))) <= sm n loss.
Proof.
  pose proof HW as (HV & LW & LR & HM).
  induction n as [|n IH]; intros Hn; [cbn [seq rev]; rewrite (ttmc_nil RL) by auto; rewrite sm_0; cbn; lra|].
  rewrite sm_S, seq_S, rev_app_distr. cbn [rev app plus]. set (ms := rev (seq 0 n)) in *.
  assert (Hms : forall m, In m ms -> (m < n)%nat) by (intros m Hm; apply in_rev in Hm; apply in_seq in Hm; lia).
  assert (Hd : NoDup ms) by (apply NoDup_rev, seq_NoDup).
  assert (Hni : ~ In n ms) by (intros Hi; apply Hms in Hi; lia).
  rewrite <- (ttm_ttmc RL) by auto. set (C := ttmc V W ms) in *. set (l := nth n (lens V) 0%nat). set (k := nth n ranks 0%nat).
  assert (HU : is_mat (fac W n) l k) by (apply HM; lia). assert (HOn : ortho_cols (fac W n) k) by (apply HO; lia).
  assert (LC : nth n (lens C) 0%nat = l) by (unfold C; cbn [ttmc tabulate lens]; rewrite ttmc_lens_nth, existsb_not by auto; auto).
  assert (Hstep : sumsq C - sumsq (ttm C (fac W n) n) <= loss n).
  { pose proof (sumsq_proj RL C (fac W n) n k) as E1. rewrite LC in E1. unfold C in E1 at 1. rewrite ttmc_order in E1. specialize (E1 ltac:(lia) HU HOn).
    pose proof (sumsq_proj RL V (fac W n) n k ltac:(lia) HU HOn) as E2. fold l in E2.
    unfold loss. change (sumsq C - sumsq (ttm C (fac W n) n)) with (nsub (sumsq C : Rnum) (sumsq (ttm C (fac W n) n))). 
    change (sumsq V - sumsq (ttm V (fac W n) n)) with (nsub (sumsq V : Rnum) (sumsq (ttm V (fac W n) n))). rewrite <- E1, <- E2.
    unfold C. rewrite <- (ttmc_ttm RL) by (auto; try lia; intros m Hm; apply Hms in Hm; lia).
    apply (bessel_all _ W ranks); auto; [apply ttm_wf|]. intros m Hm. apply Hms in Hm. rewrite ttm_order, ttm_lens. split; [lia|].
    rewrite lset_other by lia. split; [apply HM; lia|apply HO; lia]. }
  specialize (IH ltac:(lia)). lra.
Qed.
Lemma total_loss : tucker_resid2 V W <= sm (order V) loss.
Proof.
  pose proof (resid_of_core V W ranks HW HO). pose proof (telescope (order V) (le_n _)) as T.
  rewrite (ttmc_perm RL V W (rev (seq 0 (order V))) (seq 0 (order V))) in T by (apply Permutation_sym, Permutation_rev). fold (tucker_core V W) in T. lra.
Qed.
End HQ.
(** the part of V that mode n of orthonormal factors can represent bounds the core *)
Lemma core_le_ttm (V : tensor Rnum) W ranks n : tucker_ok V W ranks -> ortho_factors W ranks -> (n < order V)%nat ->
  sumsq (tucker_core V W) <= sumsq (ttm V (fac W n) n).
Proof.
  intros HW HO Hn. pose proof HW as (HV & LW & LR & HM). rewrite (core_ttm RL V W n Hn).
  assert (Hin : forall m, In m (others n (order V)) -> (m < order V)%nat /\ m <> n) by (intros m Hm; apply others_in in Hm; lia).
  assert (Hd : NoDup (others n (order V))) by (apply NoDup_filter, seq_NoDup).
  rewrite <- (ttmc_ttm RL) by auto. apply (bessel_all _ W ranks); auto; [apply ttm_wf|].
  intros m Hm. destruct (Hin m Hm). rewrite ttm_order, ttm_lens. split; [lia|]. rewrite lset_other by lia. split; [apply HM; lia|apply HO; lia].
Qed.
Theorem hosvd_quality (V : tensor Rnum) W P ranks : tucker_ok V W ranks -> ranks_ok (lens V) ranks ->
  (forall n, (n < order V)%nat -> lead_cols (fac W n) (unfold_gram V n) (nth n (lens V) 0%nat) (nth n ranks 0%nat)) ->
  tucker_ok V P ranks -> ortho_factors P ranks ->
  ortho_factors W ranks /\ tucker_resid2 V W <= INR (order V) * tucker_resid2 V P.
Proof.
  intros HW HR Hl HP HOP.
  assert (B : forall n, (n < order V)%nat -> ortho_cols (fac W n) (nth n ranks 0%nat) /\ forall Q, is_mat Q (nth n (lens V) 0%nat) (nth n ranks 0%nat) ->
    ortho_cols Q (nth n ranks 0%nat) -> sumsq (ttm V Q n) <= sumsq (ttm V (fac W n) n)).
  { intros n Hn. apply best_ttm; auto. apply HR. exact Hn. }
  assert (HO : ortho_factors W ranks) by (intros m Hm; apply B; destruct HW as (_ & LW & _); lia).
  split; [exact HO|]. eapply Rle_trans; [apply (total_loss V W ranks HW HO)|]. rewrite <- sm_const. apply sm_le. intros n Hn.
  pose proof (resid_of_core V P ranks HP HOP). pose proof (core_le_ttm V P ranks n HP HOP Hn).
  destruct (B n Hn) as [_ B2]. specialize (B2 (fac P n)). destruct HP as (_ & LP & _ & HMP). specialize (B2 (HMP n Hn)). assert (ortho_cols (fac P n) (nth n ranks 0%nat)) by (apply HOP; lia).
  specialize (B2 H1). lra.
Qed.
