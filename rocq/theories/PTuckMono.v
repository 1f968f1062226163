(** Over the reals: the update of one mode by leading singular vectors is the best one, so sweeps never lose core norm *)
From Coq Require Import List ZArith Lia Bool Arith Reals Lra Permutation.
From Verif Require Import Base Num NumR Tensor Spec Spec7 Spec8 Spec18 PBase PTensor PSum PPart PMat PMatAlg PMttkrp PGrad PResid PTtm PTucker PSign PTSweep PTuckFit PKyFan.
Import ListNotations.
Local Open Scope R_scope.
Local Notation RL := Rnum_ring.

Lemma bigsum_nonneg {X} (l : list X) (f : X -> R) : (forall x, In x l -> 0 <= f x) -> 0 <= bigsum (N:=Rnum) l f.
Proof.
  intros H. induction l as [|a l IH]; [cbn; lra|]. change (0 <= f a + bigsum (N:=Rnum) l f).
  apply Rplus_le_le_0_compat; [apply H; left; auto|apply IH; intros; apply H; right; auto].
Qed.
Lemma sumsq_nonneg (T : tensor Rnum) : 0 <= sumsq T.
Proof. apply bigsum_nonneg. intros x _. apply Rle_0_sqr. Qed.
Lemma norm2_sumsq (T : tensor Rnum) : wf T -> norm2 T = sqrt (sumsq T).
Proof. intros H. unfold norm2, sumsq. rewrite <- (at_all T H) at 1. rewrite bigsum_map. reflexivity. Qed.

(** the columns of U are, up to sign, the first k left singular vectors of G *)
Definition lead_cols (U G : tensor Rnum) (n k : nat) : Prop :=
  exists (Uf s VT : tensor Rnum) (sg : nat -> R), is_svd G Uf s VT n /\
    (forall i, (i < n)%nat -> 0 <= at_ s [i]) /\ (forall i j, (i <= j < n)%nat -> at_ s [j] <= at_ s [i]) /\
    (forall j, sg j = 1 \/ sg j = -1) /\
    is_mat U n k /\ forall a j, (a < n)%nat -> (j < k)%nat -> el U a j = sg j * el Uf a j.
Lemma leading_lead svd (G : tensor Rnum) n k : leading_svd svd G n k -> lead_cols (lsv svd G k) G n k.
Proof.
  intros (U & s & VT & H1 & H2 & H3 & H4 & H5). exists U, s, VT, (fun _ => 1). split; auto.
  split; [intros i Hi; apply Rnle; apply H2; auto|]. split; [intros i j Hi; apply Rnle; apply H3; auto|]. split; auto. split; auto.
  intros a j Ha Hj. rewrite H5 by auto. symmetry. apply Rmult_1_l.
Qed.

Lemma request_mat (V : tensor Rnum) W n : (n < order V)%nat -> is_mat (hooi_request V W n) (nth n (lens V) 0%nat) (nth n (lens V) 0%nat).
Proof. intros Hn. unfold hooi_request. split; [|apply tabulate_wf]. cbn [unfold_gram tabulate lens]. unfold unfold_gram. cbn [tabulate lens]. rewrite request_lens by auto. reflexivity. Qed.
Lemma request_sym (V : tensor Rnum) W n a b : (n < order V)%nat -> (a < nth n (lens V) 0)%nat -> (b < nth n (lens V) 0)%nat ->
  el (hooi_request V W n) a b = el (hooi_request V W n) b a.
Proof.
  intros Hn Ha Hb. unfold hooi_request, unfold_gram, el. rewrite request_lens by auto. rewrite !at_tabulate by (apply inb2; auto).
  cbn [nth]. unfold unfold_gram_at. apply bigsum_ext. intros x _. cbn. ring.
Qed.
Lemma request_psd (V : tensor Rnum) W n (x : nat -> R) : (n < order V)%nat -> (n < length W)%nat ->
  0 <= sm (nth n (lens V) 0%nat) (fun a => sm (nth n (lens V) 0%nat) (fun b => x a * el (hooi_request V W n) a b * x b)).
Proof.
  intros Hn HL. set (l := nth n (lens V) 0%nat).
  pose proof (core_quadratic RL V W n (mk (N:=Rnum) l 1 (fun a _ => x a)) 1 Hn HL (mk_mat _ _ _)) as E. fold l in E.
  pose proof (sumsq_nonneg (tucker_core V (setf W n (mk (N:=Rnum) l 1 (fun a _ => x a))))) as P. rewrite E in P. clear E.
  set (f := fun j : nat => _) in P. change (0 <= sm 1 f) in P. rewrite sm_S, sm_0 in P. unfold f in P.
  erewrite sm_ext; [|intros a Ha; apply sm_ext; intros b Hb; reflexivity].
  replace (sm l (fun a => sm l (fun b => x a * el (hooi_request V W n) a b * x b))) with
    (sm l (fun a => sm l (fun b => el (mk (N:=Rnum) l 1 (fun a _ => x a)) a 0 * el (hooi_request V W n) a b * el (mk (N:=Rnum) l 1 (fun a _ => x a)) b 0))).
  - rewrite Rplus_0_l in P. exact P.
  - apply sm_ext. intros a Ha. apply sm_ext. intros b Hb. rewrite !el_mk by auto. reflexivity.
Qed.

Section Best.
Context (V : tensor Rnum) (W : list (tensor Rnum)) (n k : nat).
Let l := nth n (lens V) 0%nat.
Hypothesis Hn : (n < order V)%nat.
Hypothesis HL : (n < length W)%nat.
Hypothesis Hk : (k <= l)%nat.
Let G := hooi_request V W n.

Lemma core_qtr (P : tensor Rnum) : is_mat P l k -> sumsq (tucker_core V (setf W n P)) = qtr l (el G) k (el P).
Proof. intros HP. rewrite (core_quadratic RL V W n P k Hn HL HP). reflexivity. Qed.
Lemma qtr_sign (U Uf : tensor Rnum) sg : (forall j, sg j = 1 \/ sg j = -1) -> (forall a j, (a < l)%nat -> (j < k)%nat -> el U a j = sg j * el Uf a j) ->
  qtr l (el G) k (el U) = qtr l (el G) k (el Uf).
Proof.
  intros Hs HU. unfold qtr. apply sm_ext. intros j Hj. apply sm_ext. intros a Ha. apply sm_ext. intros b Hb. rewrite !HU by auto.
  destruct (Hs j) as [-> | ->]; ring.
Qed.
Lemma el_svd (Uf s VT : tensor Rnum) a b : is_svd G Uf s VT l -> (a < l)%nat -> (b < l)%nat ->
  el G a b = sm l (fun i => el Uf a i * at_ s [i] * el VT i b).
Proof.
  intros (HU & Ls & Ws & HVT & E & _) Ha Hb. rewrite E.
  assert (HD : is_mat (mmul Uf (mdiag l (fun i => at_ s [i]))) l l) by (eapply mmul_mat; [exact HU|apply mdiag_mat]).
  rewrite (el_mmul _ _ l l l a b HD HVT) by auto. apply sm_ext. intros i Hi. rewrite (mmul_diag_r RL Uf l l) by auto. rewrite el_mk by auto. reflexivity.
Qed.
Lemma ortho_sm (A : tensor Rnum) r c : is_mat A r c -> ortho_cols A c -> forall i j, (i < c)%nat -> (j < c)%nat ->
  sm r (fun a => el A a i * el A a j) = PKyFan.dl i j.
Proof. intros HA HO i j Hi Hj. exact (ortho_gram A r c HA HO i j Hi Hj). Qed.
Lemma ortho_rows (A : tensor Rnum) r c : is_mat A r c -> mmul A (mtrans A) = mid r -> forall i j, (i < r)%nat -> (j < r)%nat ->
  sm c (fun a => el A i a * el A j a) = PKyFan.dl i j.
Proof.
  intros HA H i j Hi Hj. assert (E : el (mmul A (mtrans A)) i j = el (mid r) i j) by (rewrite H; auto).
  rewrite (el_mmul _ _ r c r) in E by (auto; apply mtrans_mat; auto). unfold mid in E. rewrite el_mdiag in E by auto.
  transitivity (if Nat.eqb i j then (n1 : Rnum) else n0); [|reflexivity]. rewrite <- E.
  apply sm_ext. intros a Ha. rewrite (el_mtrans _ _ _ _ _ HA) by auto. reflexivity.
Qed.

Theorem best_update (U : tensor Rnum) : lead_cols U G l k ->
  ortho_cols U k /\ forall P, is_mat P l k -> ortho_cols P k -> sumsq (tucker_core V (setf W n P)) <= sumsq (tucker_core V (setf W n U)).
Proof.
  intros (Uf & s & VT & sg & Hsvd & Hs & Hd & Hsg & HU & HUe).
  pose proof Hsvd as (HUf & Ls & Ws & HVT & E & O1 & O2 & O3 & O4). split.
  - apply (gram_ortho U l k HU). intros a b Ha Hb.
    transitivity (sm l (fun i => (sg a * sg b) * (el Uf i a * el Uf i b))).
    + apply sm_ext. intros i Hi. rewrite !HUe by auto. cbn. ring.
    + rewrite sm_l. rewrite (ortho_sm Uf l l HUf O1) by lia. unfold PKyFan.dl. destruct (Nat.eqb_spec a b) as [->|]; cbn; [destruct (Hsg b) as [-> | ->]|]; ring.
  - intros P HP HO. rewrite !core_qtr by auto. rewrite (qtr_sign U Uf sg) by auto.
    apply (kyfan l (el G) (el Uf) (el VT) (fun i => at_ s [i])).
    + intros a b Ha Hb. apply request_sym; auto.
    + intros x. apply request_psd; auto.
    + intros a b Ha Hb. apply el_svd; auto.
    + intros i j Hi Hj. apply (ortho_sm Uf l l); auto.
    + intros i j Hi Hj. apply (ortho_rows Uf l l); auto.
    + intros i j Hi Hj. apply (ortho_rows VT l l); auto.
    + exact Hs.
    + exact Hd.
    + exact Hk.
    + intros i j Hi Hj. apply (ortho_sm P l k); auto.
Qed.
End Best.

Lemma setf_self (W : list (tensor Rnum)) n : setf W n (fac W n) = W.
Proof. unfold setf, fac. apply lset_self. Qed.

(** *** one sweep *)
Section Sweep.
Context (V : tensor Rnum) (ranks : list nat) (upd : list (tensor Rnum) -> nat -> tensor Rnum).
Let o := order V.
Hypothesis Hr : ranks_ok (lens V) ranks.
Let up := uptow upd.
Context (W : list (tensor Rnum)).
Hypothesis HW : tucker_ok V W ranks.
Hypothesis Hlead : forall n, (n < o)%nat -> lead_cols (upd (up n W) n) (hooi_request V (up n W) n) (nth n (lens V) 0%nat) (nth n ranks 0%nat).

Lemma up_state n : (n <= o)%nat -> tucker_ok V (up n W) ranks /\ (forall m, (m < n)%nat -> ortho_cols (fac (up n W) m) (nth m ranks 0%nat)) /\
  (forall m, (n <= m)%nat -> fac (up n W) m = fac W m).
Proof.
  induction n as [|n IH]; intros Hn; [split; [exact HW|split; [intros; lia|reflexivity]]|].
  destruct IH as (I1 & I2 & I3); [lia|]. pose proof (Hlead n ltac:(lia)) as Hl.
  assert (HU : is_mat (upd (up n W) n) (nth n (lens V) 0%nat) (nth n ranks 0%nat)) by (destruct Hl as (?&?&?&?&?&?&?&?&?&?); auto).
  assert (LW : length (up n W) = o) by apply I1.
  destruct (best_update V (up n W) n (nth n ranks 0%nat) ltac:(unfold o in *; lia) ltac:(lia) ltac:(apply Hr; unfold o, order in *; lia) _ Hl) as [HO _].
  unfold up. rewrite uptow_S. fold up. split; [|split].
  - destruct I1 as (V1 & V2 & V3 & V4). split; auto. split; [rewrite setf_length; auto|]. split; auto. intros m Hm.
    rewrite fac_setf by lia. destruct (Nat.eqb_spec m n) as [->|]; auto.
  - intros m Hm. rewrite fac_setf by lia. destruct (Nat.eqb_spec m n) as [->|]; auto. apply I2. lia.
  - intros m Hm. rewrite fac_setf by lia. destruct (Nat.eqb_spec m n); [lia|]. apply I3. lia.
Qed.
Lemma up_step n : (n < o)%nat -> ortho_cols (fac W n) (nth n ranks 0%nat) ->
  sumsq (tucker_core V (up n W)) <= sumsq (tucker_core V (up (S n) W)).
Proof.
  intros Hn HO. destruct (up_state n ltac:(lia)) as (I1 & I2 & I3). unfold up at 2. rewrite uptow_S. fold up.
  assert (LW : length (up n W) = o) by apply I1.
  destruct (best_update V (up n W) n (nth n ranks 0%nat) ltac:(unfold o in *; lia) ltac:(lia) ltac:(apply Hr; unfold o, order in *; lia) _ (Hlead n Hn)) as [_ HB].
  specialize (HB (fac (up n W) n)). rewrite setf_self in HB. apply HB.
  - apply I1. auto.
  - rewrite I3 by lia. auto.
Qed.
Theorem sweep_ortho : tucker_ok V (up o W) ranks /\ ortho_factors (up o W) ranks.
Proof.
  destruct (up_state o ltac:(lia)) as (I1 & I2 & _). split; auto. intros m Hm. apply I2.
  assert (LW : length (up o W) = o) by apply I1. lia.
Qed.
Theorem sweep_core n : (n <= o)%nat -> ortho_factors W ranks -> sumsq (tucker_core V W) <= sumsq (tucker_core V (up n W)).
Proof.
  intros Hn HO. induction n as [|n IH]; [apply Rle_refl|]. eapply Rle_trans; [apply IH; lia|]. apply up_step; [lia|]. apply HO.
  destruct HW as (_ & LW & _). unfold o in Hn. lia.
Qed.
End Sweep.

Theorem resid_of_core (V : tensor Rnum) W ranks : tucker_ok V W ranks -> ortho_factors W ranks ->
  tucker_resid2 V W + sumsq (tucker_core V W) = sumsq V.
Proof. intros H HO. rewrite (fit_identity RL V W ranks H HO). cbn. ring. Qed.
Lemma tucker_resid_sqrt (V : tensor Rnum) W : tucker_resid V W = sqrt (tucker_resid2 V W).
Proof. unfold tucker_resid, tucker_resid2. apply norm2_sumsq. apply tabulate_wf. Qed.
Lemma core_le (V : tensor Rnum) W ranks : tucker_ok V W ranks -> ortho_factors W ranks -> sumsq (tucker_core V W) <= sumsq V.
Proof. intros H HO. rewrite <- (resid_of_core V W ranks H HO). pose proof (sumsq_nonneg (msub (tucker_full (tucker_core V W) W) V)). unfold tucker_resid2. lra. Qed.

(** *** iterated sweeps *)
Section Iter.
Context (svd : tensor Rnum -> nat -> tensor Rnum * tensor Rnum * tensor Rnum) (V : tensor Rnum) (ranks : list nat) (W : list (tensor Rnum)).
Hypothesis Hr : ranks_ok (lens V) ranks.
Hypothesis HW : tucker_ok V W ranks.
Hypothesis Hl : leading_along svd V ranks W.
Let Wf k := Nat.iter k (hooi_sweep svd V ranks) W.
Lemma hooi_upto_uptow' n X : hooi_upto svd V ranks n X = uptow (hooi_factor svd V ranks) n X.
Proof. reflexivity. Qed.
Lemma Wf_lead k n : (n < order V)%nat ->
  lead_cols (hooi_factor svd V ranks (uptow (hooi_factor svd V ranks) n (Wf k)) n)
    (hooi_request V (uptow (hooi_factor svd V ranks) n (Wf k)) n) (nth n (lens V) 0%nat) (nth n ranks 0%nat).
Proof. intros Hn. apply leading_lead. exact (Hl k n Hn). Qed.
Lemma Wf_ok k : tucker_ok V (Wf k) ranks.
Proof.
  induction k as [|k IH]; [exact HW|]. exact (proj1 (sweep_ortho V ranks _ Hr (Wf k) IH (Wf_lead k))).
Qed.
Lemma Wf_ortho k : (1 <= k)%nat \/ ortho_factors W ranks -> ortho_factors (Wf k) ranks.
Proof.
  intros H. destruct k as [|k]; [destruct H as [H|H]; [lia|exact H]|].
  exact (proj2 (sweep_ortho V ranks _ Hr (Wf k) (Wf_ok k) (Wf_lead k))).
Qed.
Lemma Wf_step k : (1 <= k)%nat \/ ortho_factors W ranks -> sumsq (tucker_core V (Wf k)) <= sumsq (tucker_core V (Wf (S k))).
Proof. intros H. exact (sweep_core V ranks _ Hr (Wf k) (Wf_ok k) (Wf_lead k) (order V) (le_n _) (Wf_ortho k H)). Qed.
Lemma Wf_mono j k : (1 <= j)%nat \/ ortho_factors W ranks -> (j <= k)%nat -> sumsq (tucker_core V (Wf j)) <= sumsq (tucker_core V (Wf k)).
Proof.
  intros H Hjk. induction Hjk as [|k Hjk IH]; [apply Rle_refl|]. eapply Rle_trans; [exact IH|]. apply Wf_step. destruct H; [left; lia|right; auto].
Qed.
Lemma Wf_resid j k : (1 <= j)%nat \/ ortho_factors W ranks -> (j <= k)%nat -> tucker_resid V (Wf k) <= tucker_resid V (Wf j).
Proof.
  intros H Hjk. rewrite !tucker_resid_sqrt. apply sqrt_le_1_alt.
  assert (Hk : (1 <= k)%nat \/ ortho_factors W ranks) by (destruct H; [left; lia|right; auto]).
  pose proof (resid_of_core V (Wf j) ranks (Wf_ok j) (Wf_ortho j H)). pose proof (resid_of_core V (Wf k) ranks (Wf_ok k) (Wf_ortho k Hk)).
  pose proof (Wf_mono j k H Hjk). lra.
Qed.
End Iter.

(** *** checks of a bounded monotone quantity *)
Section Checks.
Context (chk : nat -> bool) (c0 : tensor Rnum) (coref : nat -> tensor Rnum) (tol B : R).
Hypothesis chk0 : chk 0%nat = false.
Hypothesis Hmono : forall j k, (1 <= j <= k)%nat -> norm2 (coref j) <= norm2 (coref k).
Hypothesis Hb : forall k, (1 <= k)%nat -> norm2 (coref k) <= B.
Lemma checks_bound k : (forall i, (i < k)%nat -> chk i = true -> tol <= core_change chk c0 coref i) ->
  checked_below chk k = [] \/
  (exists j, (1 <= j < k)%nat /\ last_checked chk c0 coref k = coref j) /\ INR (length (checked_below chk k)) * tol - tol <= norm2 (last_checked chk c0 coref k).
Proof.
  induction k as [|k IH]; intros H; [left; reflexivity|].
  unfold checked_below. rewrite seq_S, filter_app. cbn [filter plus last_checked]. fold (checked_below chk k).
  destruct (chk k) eqn:E.
  - right. assert (Hk : (1 <= k)%nat) by (destruct k; [congruence|lia]). split; [exists k; split; [lia|auto]|].
    rewrite app_length. cbn [length]. rewrite Nat.add_1_r, S_INR.
    destruct IH as [En|((j & Hj & Ej) & IH)]; [intros; apply H; auto| |].
    + rewrite En. cbn [length INR]. pose proof (sqrt_pos (bigsum (N:=Rnum) (data (coref k)) (fun x => x * x))). change (0 <= norm2 (coref k)) in H0. lra.
    + specialize (H k (Nat.lt_succ_diag_r k) E). unfold core_change in H. rewrite Ej in H, IH. pose proof (Hmono j k ltac:(lia)).
      cbn in H. rewrite Rabs_pos_eq in H by (cbn in *; lra). cbn in *. lra.
  - rewrite app_nil_r. destruct IH as [En|((j & Hj & Ej) & IH)]; [intros; apply H; auto|left; auto|right]. split; [exists j; split; [lia|auto]|auto].
Qed.
Lemma checks_few k : 0 < tol -> 0 <= B -> (forall i, (i < k)%nat -> chk i = true -> tol <= core_change chk c0 coref i) ->
  INR (length (checked_below chk k)) * tol - tol <= B.
Proof.
  intros Ht HB H. destruct (checks_bound k H) as [En|((j & Hj & Ej) & H')]; [rewrite En; cbn; lra|].
  rewrite Ej in H'. pose proof (Hb j ltac:(lia)). lra.
Qed.
End Checks.
(** every positive multiple of r is a check *)
Lemma checks_many (chk : nat -> bool) (r k : nat) : (1 <= r)%nat -> (forall q, (1 <= q)%nat -> chk (q * r)%nat = true) ->
  ((k - 1) / r <= length (checked_below chk k))%nat.
Proof.
  intros Hr Hc. set (q := ((k - 1) / r)%nat).
  assert (Hq : (q * r <= k - 1)%nat) by (unfold q; rewrite Nat.mul_comm; apply Nat.mul_div_le; lia).
  transitivity (length (map (fun i => i * r)%nat (seq 1 q))); [rewrite map_length, seq_length; lia|].
  apply NoDup_incl_length.
  - apply FinFun.Injective_map_NoDup; [intros a b E; apply Nat.mul_cancel_r in E; lia|apply seq_NoDup].
  - intros i Hi. apply in_map_iff in Hi as (p & <- & Hp). apply in_seq in Hp. apply filter_In. split; [apply in_seq; nia|apply Hc; lia].
Qed.
