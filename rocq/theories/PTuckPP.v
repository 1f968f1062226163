(** Over the reals: how much core norm an update of the pairwise-perturbation Tucker sweep may lose.
    Operator-norm bounds for tensor-times-matrix products, the best update for any tensor, the error of the expansion around
    orthonormal checkpoint factors. *)
From Coq Require Import List ZArith Lia Bool Arith Reals Lra Permutation.
From Verif Require Import Base Num NumR Tensor Spec Spec7 Spec8 Spec18 Spec20 PBase PTensor PSum PPart PMat PMatAlg PMttkrp PGrad PResid PTtm PTucker PSign PTSweep PTuckFit PKyFan
  PTuckMono PRank PNormalize PALS PMono PMono2 PTree PDT PDTSweep PDrivers PPP PPPSweep PPPDriver PConv PConv2 PPPMulti PErr.
Import ListNotations.
Local Open Scope R_scope.
Local Notation RL := Rnum_ring.
Local Notation bs := (bigsum (N:=Rnum)).
Local Notation bp := (bigprod (N:=Rnum)).

(** ** matrices as maps of vectors *)
Definition vmap (A : tensor Rnum) (r : nat) (y : nat -> R) (j : nat) : R := sm r (fun a => y a * el A a j).
Definition op_le (A : tensor Rnum) (r k : nat) (c : R) : Prop :=
  forall y, sm k (fun j => vmap A r y j * vmap A r y j) <= c * c * sm r (fun a => y a * y a).
Lemma bessel (A : tensor Rnum) r k : is_mat A r k -> ortho_cols A k -> op_le A r k 1.
Proof.
  intros HA HO y. set (p := vmap A r y).
  assert (P : 0 <= sm r (fun a => (y a - sm k (fun j => p j * el A a j)) * (y a - sm k (fun j => p j * el A a j)))) by (apply sm_nonneg; intros; apply Rle_0_sqr).
  assert (E : sm r (fun a => (y a - sm k (fun j => p j * el A a j)) * (y a - sm k (fun j => p j * el A a j)))
     = sm r (fun a => y a * y a) - 2 * sm k (fun j => p j * p j) + sm k (fun j => p j * p j)).
  { assert (E1 : sm r (fun a => y a * sm k (fun j => p j * el A a j)) = sm k (fun j => p j * p j)).
    { rewrite (sm_ext r _ (fun a => sm k (fun j => p j * (y a * el A a j)))) by (intros a _; rewrite <- sm_l; apply sm_ext; intros; ring).
      rewrite sm_swap. apply sm_ext. intros j Hj. rewrite sm_l. reflexivity. }
    assert (E2 : sm r (fun a => sm k (fun j => p j * el A a j) * sm k (fun j => p j * el A a j)) = sm k (fun j => p j * p j)).
    { rewrite (sm_ext r _ (fun a => sm k (fun i => sm k (fun j => (p i * p j) * (el A a i * el A a j))))).
      2:{ intros a _. rewrite <- sm_r. apply sm_ext. intros i _. rewrite <- sm_l. apply sm_ext. intros; ring. }
      rewrite sm_swap. apply sm_ext. intros i Hi. rewrite sm_swap. rewrite (sm_ext k _ (fun j => dl i j * (p i * p j))).
      - apply (sm_dl k i (fun j => p i * p j)). auto.
      - intros j Hj. rewrite sm_l. rewrite (ortho_sm A r k HA HO) by auto. ring. }
    rewrite <- E2 at 2. rewrite <- E1 at 1. rewrite <- sm_l, <- sm_sub, <- sm_add. apply sm_ext. intros a _. ring. }
  rewrite E in P. fold p. lra.
Qed.
Lemma op_frob (A : tensor Rnum) r k : is_mat A r k -> op_le A r k (norm2 A).
Proof.
  intros HA y. rewrite (norm2_mat A r k HA). unfold sm. rewrite <- bs_mul_r. apply bs_le. intros j _. unfold vmap.
  eapply Rle_trans; [apply (cauchy (seq 0 r) y (fun a => el A a j))|]. rewrite Rmult_comm. apply Rle_refl.
Qed.
(** a factor of operator norm at most c in one mode *)
Lemma ttm_op (T A : tensor Rnum) m k c : wf T -> (m < order T)%nat -> is_mat A (nth m (lens T) 0%nat) k -> 0 <= c -> op_le A (nth m (lens T) 0%nat) k c ->
  norm2 (ttm T A m) <= c * norm2 T.
Proof.
  intros HT Hm HA Hc Hop. pose proof (norm2_pos T) as T0. apply sq_le; [apply Rmult_le_pos; auto|].
  replace (c * norm2 T * (c * norm2 T)) with (c * c * (norm2 T * norm2 T)) by (change (car Rnum) with R; ring).
  rewrite (norm2_nrm T HT), (norm2_nrm (ttm T A m)) by apply ttm_wf. rewrite !nrm_sq. rewrite ttm_lens, (is_mat_ncol _ _ _ HA).
  rewrite (fiber_shift RL (lset (lens T) m k) m) by (rewrite lset_length; auto). rewrite lset_same by auto. rewrite lset_lset.
  rewrite (fiber_shift RL (lens T) m) by auto. rewrite <- bs_mul_l. apply bs_le. intros x Hx. apply all_idx_in in Hx.
  assert (Lx : length x = length (lens T)) by (rewrite (inb_length _ _ Hx), lset_length; auto).
  eapply Rle_trans; [|exact (Hop (fun a => at_ T (lset x m a)))]. apply Req_le. apply sm_ext. intros j Hj. unfold vmap.
  assert (E : at_ (ttm T A m) (lset x m j) = sm (nth m (lens T) 0%nat) (fun a => at_ T (lset x m a) * el A a j)).
  { rewrite ttm_at.
    - rewrite lset_same by (rewrite Lx; auto). apply sm_ext. intros a _. rewrite lset_lset. auto.
    - rewrite (is_mat_ncol _ _ _ HA). apply (inb_lset _ _ m k j) in Hx; [|lia]. rewrite lset_lset in Hx. auto. }
  rewrite E. reflexivity.
Qed.
Lemma ttmc_op (V : tensor Rnum) W ms (c : nat -> R) (ks : nat -> nat) : wf V -> NoDup ms -> (forall m, In m ms -> (m < order V)%nat) ->
  (forall m, In m ms -> is_mat (fac W m) (nth m (lens V) 0%nat) (ks m)) -> (forall m, In m ms -> 0 <= c m) ->
  (forall m, In m ms -> op_le (fac W m) (nth m (lens V) 0%nat) (ks m) (c m)) ->
  norm2 (ttmc V W ms) <= norm2 V * bp ms c.
Proof.
  intros HV. induction ms as [|m ms IH]; intros Hn Hlt HM Hc Hop.
  - rewrite (ttmc_nil RL) by auto. change (bp [] c) with 1. rewrite Rmult_1_r. apply Rle_refl.
  - inversion Hn as [|x l Hnot Hnd]; subst. rewrite <- (ttm_ttmc RL) by (auto; apply Hlt; left; auto). rewrite bp_cons.
    assert (L : nth m (lens (ttmc V W ms)) 0%nat = nth m (lens V) 0%nat).
    { cbn [ttmc tabulate lens]. rewrite ttmc_lens_nth by (apply Hlt; left; auto). rewrite existsb_not; auto. }
    eapply Rle_trans; [apply (ttm_op _ _ m (ks m) (c m))|].
    + apply ttmc_wf.
    + rewrite ttmc_order. apply Hlt. left; auto.
    + rewrite L. apply HM. left; auto.
    + apply Hc. left; auto.
    + rewrite L. apply Hop. left; auto.
    + assert (I : norm2 (ttmc V W ms) <= norm2 V * bp ms c) by (apply IH; auto; intros; try apply Hlt; try apply HM; try apply Hc; try apply Hop; right; auto).
      assert (C : 0 <= c m) by (apply Hc; left; auto). change (car Rnum) with R in *.
      apply Rle_trans with (c m * (norm2 V * bp ms c)); [apply Rmult_le_compat_l; auto|apply Req_le; ring].
Qed.

(** ** the best update, for any tensor *)
Lemma lead_ortho (U H : tensor Rnum) r c : (c <= r)%nat -> lead_cols U H r c -> is_mat U r c /\ ortho_cols U c.
Proof.
  intros Hc (Uf & s & VT & sg & Hsvd & Hs & Hd & Hsg & HU & HUe). split; auto.
  pose proof Hsvd as (HUf & Ls & Ws & HVT & E & O1 & O2 & O3 & O4).
  apply (gram_ortho U r c HU). intros a b Ha Hb.
  transitivity (sm r (fun i => (sg a * sg b) * (el Uf i a * el Uf i b))).
  - apply sm_ext. intros i Hi. rewrite !HUe by auto. cbn. ring.
  - rewrite sm_l. rewrite (ortho_sm Uf r r HUf O1) by lia. unfold PKyFan.dl. destruct (Nat.eqb_spec a b) as [->|]; cbn; [destruct (Hsg b) as [-> | ->]|]; ring.
Qed.
Section Best.
Context (Y : tensor Rnum) (n k : nat).
Let l := nth n (lens Y) 0%nat.
Hypothesis Hn : (n < order Y)%nat.
Hypothesis Hk : (k <= l)%nat.
Let G := unfold_gram Y n.
Lemma gram_mat : is_mat G l l.
Proof. split; [reflexivity|apply tabulate_wf]. Qed.
Lemma gram_sym a b : (a < l)%nat -> (b < l)%nat -> el G a b = el G b a.
Proof.
  intros Ha Hb. unfold G, unfold_gram, el. rewrite !at_tabulate by (apply inb2; auto). cbn [nth]. unfold unfold_gram_at. apply bigsum_ext. intros x _. cbn. ring.
Qed.
Lemma ttm_qtr (P : tensor Rnum) c : is_mat P l c -> sumsq (ttm Y P n) = qtr l (el G) c (el P).
Proof. intros HP. rewrite (sumsq_ttm RL Y P n c Hn HP). reflexivity. Qed.
Lemma gram_psd (x : nat -> R) : 0 <= sm l (fun a => sm l (fun b => x a * el G a b * x b)).
Proof.
  set (X := mk (N:=Rnum) l 1 (fun a _ => x a)). pose proof (ttm_qtr X 1 (mk_mat _ _ _)) as E.
  pose proof (sumsq_nonneg (ttm Y X n)) as P. rewrite E in P. unfold qtr in P. rewrite sm_S, sm_0, Rplus_0_l in P.
  erewrite sm_ext; [exact P|]. intros a Ha. apply sm_ext. intros b Hb. unfold X. rewrite !el_mk by auto. reflexivity.
Qed.
Theorem best_any (U P : tensor Rnum) : lead_cols U G l k -> is_mat P l k -> ortho_cols P k -> norm2 (ttm Y P n) <= norm2 (ttm Y U n).
Proof.
  intros Hl HP HO. pose proof (lead_ortho U G l k Hk Hl) as [HU _]. rewrite !norm2_sumsq by apply ttm_wf. apply sqrt_le_1_alt.
  rewrite (ttm_qtr P k HP), (ttm_qtr U k HU). destruct Hl as (Uf & s & VT & sg & Hsvd & Hs & Hd & Hsg & _ & HUe).
  pose proof Hsvd as (HUf & Ls & Ws & HVT & E & O1 & O2 & O3 & O4).
  replace (qtr l (el G) k (el U)) with (qtr l (el G) k (el Uf)).
  - apply (kyfan l (el G) (el Uf) (el VT) (fun i => at_ s [i])); auto.
    + intros a b Ha Hb. apply gram_sym; auto.
    + intros x. apply gram_psd; auto.
    + intros a b Ha Hb. rewrite E.
      assert (HD : is_mat (mmul Uf (mdiag l (fun i => at_ s [i]))) l l) by (eapply mmul_mat; [exact HUf|apply mdiag_mat]).
      rewrite (el_mmul _ _ l l l a b HD HVT) by auto. apply sm_ext. intros i Hi. rewrite (mmul_diag_r RL Uf l l) by auto. rewrite el_mk by auto. reflexivity.
    + intros i j Hi Hj. apply (ortho_sm Uf l l); auto.
    + intros i j Hi Hj. apply (ortho_rows Uf l l); auto.
    + intros i j Hi Hj. apply (ortho_rows VT l l); auto.
    + intros i j Hi Hj. apply (ortho_sm P l k); auto.
  - unfold qtr. apply sm_ext. intros j Hj. apply sm_ext. intros a Ha. apply sm_ext. intros b Hb. rewrite !HUe by auto.
    destruct (Hsg j) as [-> | ->]; ring.
Qed.
End Best.

(** ** the update found from an approximation Ya of Y *)
Lemma ttm_sub (Y Ya U : tensor Rnum) n y : lens Ya = lens Y -> inb (lset (lens Y) n (ncol U)) y -> (n < order Y)%nat -> 
  at_ (ttm Y U n) y = at_ (ttm Ya U n) y + at_ (ttm (msub Y Ya) U n) y.
Proof.
  intros HL Hy Hn. rewrite !ttm_at by (try rewrite HL; auto). cbn [msub tabulate lens]. rewrite HL.
  change (nadd (n:=Rnum)) with Rplus. rewrite <- (bs_add (seq 0 (nth n (lens Y) 0%nat))). apply bs_ext. intros x Hx. apply in_seq in Hx.
  unfold msub. rewrite at_tabulate.
  - cbn. ring.
  - apply (inb_lset _ _ n (nth n (lens Y) 0%nat) x) in Hy; [|lia]. rewrite lset_lset, lset_self in Hy. exact Hy.
Qed.
Lemma ttm_close (Y Ya U : tensor Rnum) n k : lens Ya = lens Y -> (n < order Y)%nat -> is_mat U (nth n (lens Y) 0%nat) k -> ortho_cols U k ->
  norm2 (ttm Y U n) <= norm2 (ttm Ya U n) + norm2 (msub Y Ya) /\ norm2 (ttm Ya U n) <= norm2 (ttm Y U n) + norm2 (msub Y Ya).
Proof.
  intros HL Hn HU HO. set (E := msub Y Ya).
  assert (LE : lens E = lens Y) by reflexivity.
  assert (HE : norm2 (ttm E U n) <= norm2 E).
  { eapply Rle_trans; [apply (ttm_op E U n k 1)|rewrite Rmult_1_l; apply Rle_refl]; try (unfold order; rewrite LE); auto; [apply tabulate_wf|lra|apply bessel; auto]. }
  assert (K : forall T, lens T = lens Y -> norm2 (ttm T U n) = nrm (all_idx (lset (lens Y) n (ncol U))) (at_ (ttm T U n))).
  { intros T HT. rewrite norm2_nrm by apply ttm_wf. rewrite ttm_lens, HT. reflexivity. }
  assert (KE := K E LE). assert (KY := K Y eq_refl). assert (KA := K Ya HL).
  set (LX := all_idx (lset (lens Y) n (ncol U))) in *.
  assert (D : forall y, In y LX -> at_ (ttm Y U n) y = at_ (ttm Ya U n) y + at_ (ttm E U n) y) by (intros y Hy; apply all_idx_in in Hy; apply ttm_sub; auto).
  split.
  - rewrite KY, KA. rewrite (nrm_ext LX _ (fun y => at_ (ttm Ya U n) y + at_ (ttm E U n) y)) by exact D.
    eapply Rle_trans; [apply minkowski|]. rewrite <- KE. apply Rplus_le_compat_l. exact HE.
  - rewrite KY, KA. rewrite (nrm_ext LX (at_ (ttm Ya U n)) (fun y => at_ (ttm Y U n) y + - at_ (ttm E U n) y)).
    2:{ intros y Hy. rewrite (D y Hy). set (u := at_ (ttm Ya U n) y). set (v := at_ (ttm E U n) y). clearbody u v. change (car Rnum) with R in *. change (u = u + v + - v). ring. }
    eapply Rle_trans; [apply minkowski|]. apply Rplus_le_compat_l.
    assert (N' : nrm LX (fun y => - at_ (ttm E U n) y) = nrm LX (at_ (ttm E U n))) by (unfold nrm; f_equal; apply bs_ext; intros; ring).
    rewrite N', <- KE. exact HE.
Qed.
Theorem approx_best (Y Ya U P : tensor Rnum) n k : lens Ya = lens Y -> (n < order Y)%nat -> (k <= nth n (lens Y) 0)%nat ->
  lead_cols U (unfold_gram Ya n) (nth n (lens Y) 0%nat) k -> is_mat P (nth n (lens Y) 0%nat) k -> ortho_cols P k ->
  norm2 (ttm Y P n) <= norm2 (ttm Y U n) + 2 * norm2 (msub Y Ya).
Proof.
  intros HL Hn Hk Hl HP HO. pose proof (lead_ortho U _ _ _ Hk Hl) as [HU HUO].
  destruct (ttm_close Y Ya P n k HL Hn HP HO) as [A1 _]. destruct (ttm_close Y Ya U n k HL Hn HU HUO) as [_ A2].
  assert (A3 : norm2 (ttm Ya P n) <= norm2 (ttm Ya U n)).
  { apply (best_any Ya n k); unfold order in *; try rewrite HL; auto. }
  change (car Rnum) with R in *. lra.
Qed.
Lemma lead_aligned (U G Q : tensor Rnum) r k : lead_cols U G r k -> lead_cols (aligned U Q) G r k.
Proof.
  intros (Uf & s & VT & sg & Hsvd & Hs & Hd & Hsg & HU & HUe).
  exists Uf, s, VT, (fun j => sg j * (if nltb (n:=Rnum) 0 (col_inner U Q j) then 1 else -1)). split; auto. split; auto. split; auto. split; [|split].
  - intros j. cbv beta. destruct (nltb (n:=Rnum) 0 (col_inner U Q j)); destruct (Hsg j) as [E|E]; rewrite E; lra.
  - apply aligned_mat. auto.
  - intros a j Ha Hj. unfold aligned, el. destruct HU as [LU WU]. rewrite LU. rewrite at_tabulate by (apply inb2; auto). cbn [nth].
    change (at_ U [a; j]) with (el U a j). rewrite HUe by auto. change (n0 (n:=Rnum)) with 0. change (n1 (n:=Rnum)) with 1. change (nopp (n:=Rnum)) with Ropp. change (nmul (n:=Rnum)) with Rmult.
    destruct (nltb (n:=Rnum) 0 (col_inner U Q j)); change (at_ Uf [a; j]) with (el Uf a j); set (u := el Uf a j); clearbody u; change (car Rnum) with R in *; lra.
Qed.

(** ** the error of the expansion around orthonormal factors *)
Section Err.
Context (V : tensor Rnum) (ranks : list nat) (n : nat).
Let o := order V.
Hypothesis Hn : (n < o)%nat.
Hypothesis HV : wf V.
Hypothesis HR : length ranks = o.
Theorem pp_ttmc_error_op W0 dW (c d : nat -> R) : shaped V ranks W0 -> shaped V ranks dW ->
  (forall m, (m < o)%nat -> m <> n -> 0 <= c m /\ op_le (fac W0 m) (nth m (lens V) 0%nat) (nth m ranks 0%nat) (c m)) ->
  (forall m, (m < o)%nat -> m <> n -> 0 <= d m /\ op_le (fac dW m) (nth m (lens V) 0%nat) (nth m ranks 0%nat) (d m)) ->
  norm2 (msub (ttmc V (perturbed W0 dW) (others n o)) (pp_ttmc V W0 dW n)) <= norm2 V * second_order (others n o) c d.
Proof.
  intros HW HD Hc Hd. assert (LW : length W0 = o) by apply HW.
  set (lsY := map (fun m => if Nat.eqb m n then nth n (lens V) 0%nat else nth m ranks 0%nat) (seq 0 o)).
  assert (LYW : forall W, shaped V ranks W -> ttmc_lens V W (others n o) = lsY) by (intros W HS; apply (lens_Y V ranks n Hn HR W HS)).
  assert (lsY_l : length lsY = o) by (unfold lsY; rewrite map_length, seq_length; auto).
  assert (lsY_n : forall m, (m < o)%nat -> nth m lsY 0%nat = if Nat.eqb m n then nth n (lens V) 0%nat else nth m ranks 0%nat).
  { intros m Hm. unfold lsY. rewrite (nth_map_lt _ _ _ 0%nat) by (rewrite seq_length; auto). rewrite seq_nth by auto. reflexivity. }
  assert (HM : shaped V ranks (perturbed W0 dW)).
  { split; [unfold perturbed; rewrite map_length, seq_length; auto|]. intros m Hm. unfold perturbed. rewrite LW, fac_map_seq by auto.
    destruct (proj2 HW m Hm) as [E _]. split; [exact E|apply tabulate_wf]. }
  unfold msub. rewrite norm2_tabulate. cbn [ttmc tabulate lens]. rewrite LYW by auto.
  set (F := fun S (y : list nat) => tval V n (fun m => el (fac (mix V S W0 dW) m)) y).
  assert (AT : forall W y, shaped V ranks W -> inb lsY y -> at_ (ttmc V W (others n o)) y = tval V n (fun m => el (fac W m)) y).
  { intros W y HS Hy. unfold ttmc. rewrite at_tabulate by (rewrite LYW by auto; auto). apply (ttmc_tval V ranks n Hn HR). }
  rewrite (nrm_ext _ _ (fun y => tval V n (fun m => el (fac (perturbed W0 dW) m)) y - (F [] y + bs (others n o) (fun m => F [m] y)))).
  - apply (remainder_bound _ (others n o) c d _ F (fun y => tval V n (fun m => el (fac (perturbed W0 dW) m)) y)).
    + apply others_nodup.
    + intros y Hy. apply all_idx_in in Hy. unfold F, tval. rewrite (bigsum_swap RL).
      apply bs_ext. intros x Hx. apply filter_In in Hx as [Hx _]. apply all_idx_in in Hx. rewrite bs_mul_l. change (nmul (n:=Rnum)) with Rmult. f_equal. fold o.
      rewrite (bp_ext _ _ (fun m => el (fac W0 m) (nth m x 0%nat) (nth m y 0%nat) + el (fac dW m) (nth m x 0%nat) (nth m y 0%nat))).
      * rewrite expand by apply others_nodup. apply bs_ext. intros S _. apply bp_ext. intros m Hm. apply others_in in Hm as [Hm _]. rewrite fac_mix by auto.
        unfold pick. destruct (mem m S); auto.
      * intros m Hm. apply others_in in Hm as [Hm Hne]. unfold perturbed. rewrite LW. rewrite fac_map_seq by auto.
        assert (Hym : (nth m y 0 < nth m ranks 0)%nat).
        { pose proof (inb_nth lsY y m Hy) as H. rewrite lsY_l, lsY_n in H by auto. destruct (Nat.eqb_spec m n); [contradiction|]. auto. }
        exact (el_madd (N:=Rnum) _ _ (nth m (lens V) 0%nat) _ _ _ (proj2 HW m Hm) (inb_nth _ _ m Hx Hm) Hym).
    + intros S _. unfold F. assert (HS : shaped V ranks (mix V S W0 dW)) by (apply shaped_mix; auto).
      rewrite (nrm_ext _ _ (at_ (ttmc V (mix V S W0 dW) (others n o)))).
      2:{ intros y Hy. apply all_idx_in in Hy. symmetry. apply AT; auto. }
      eapply Rle_trans; [apply Req_le|apply (ttmc_op V (mix V S W0 dW) (others n o) (pick S c d) (fun m => nth m ranks 0%nat))]; auto.
      * rewrite norm2_nrm by apply ttmc_wf. cbn [ttmc tabulate lens]. rewrite LYW by auto. reflexivity.
      * apply others_nodup.
      * intros m Hm. apply others_in in Hm. tauto.
      * intros m Hm. apply others_in in Hm as [Hm _]. apply HS. auto.
      * intros m Hm. apply others_in in Hm as [Hm Hne]. apply pick_nonneg; [apply Hc|apply Hd]; auto.
      * intros m Hm. apply others_in in Hm as [Hm Hne]. rewrite fac_mix by auto. unfold pick. destruct (mem m S); [apply Hd|apply Hc]; auto.
  - intros y Hy. apply all_idx_in in Hy. assert (At1 := AT (perturbed W0 dW) y HM Hy). unfold o in *. change (tabulate _ (ttmc_at V (perturbed W0 dW) (others n (order V)))) with (ttmc V (perturbed W0 dW) (others n (order V))).
    rewrite At1. unfold pp_ttmc. rewrite at_tabulate by (rewrite LYW by auto; auto).
    change (nsub (n:=Rnum)) with Rminus. change (nadd (n:=Rnum)) with Rplus. f_equal. f_equal.
    + rewrite AT by auto. unfold F, tval. apply bs_ext. intros x _. f_equal. apply bp_ext. intros m Hm. apply others_in in Hm as [Hm _]. rewrite fac_mix by auto. reflexivity.
    + apply bs_ext. intros q Hq. apply others_in in Hq as [Hq1 Hq2].
      assert (HS : shaped V ranks (setf W0 q (fac dW q))).
      { split; [rewrite setf_length; auto|]. intros m Hm. rewrite fac_setf by lia. destruct (Nat.eqb_spec m q); [subst; apply HD; auto|apply HW; auto]. }
      rewrite AT by auto. unfold F, tval. apply bs_ext. intros x _. f_equal.
      apply bp_ext. intros m Hm. apply others_in in Hm as [Hm _]. rewrite fac_mix by auto.
      rewrite fac_setf by lia. unfold pick, mem. cbn. rewrite orb_false_r. destruct (Nat.eqb_spec m q); subst; auto.
Qed.
Theorem pp_ttmc_error_ortho W0 dW : shaped V ranks W0 -> shaped V ranks dW -> ortho_factors W0 ranks ->
  norm2 (msub (ttmc V (perturbed W0 dW) (others n o)) (pp_ttmc V W0 dW n)) <= norm2 V * second_order (others n o) (fun _ => 1) (fun m => norm2 (fac dW m)).
Proof.
  intros HW HD HO. apply pp_ttmc_error_op; auto.
  - intros m Hm _. split; [lra|]. apply bessel; [apply HW; auto|]. apply HO. destruct HW as [-> _]. auto.
  - intros m Hm _. split; [apply norm2_pos|]. apply op_frob. apply HD. auto.
Qed.
End Err.
