(** The leading singular vectors of a symmetric positive semidefinite matrix maximise the trace (Ky Fan), over the reals *)
From Coq Require Import List ZArith QArith Reals Lia Lra Bool Arith Psatz.
From Verif Require Import Base Num NumR Tensor PTensor PSum.
Import ListNotations.
Local Close Scope Q_scope.
Local Open Scope R_scope.

Definition sm (n : nat) (f : nat -> R) : R := bigsum (N:=Rnum) (seq 0 n) f.
Definition dl (i j : nat) : R := if Nat.eqb i j then 1 else 0.
Lemma sm_ext n f g : (forall i, (i < n)%nat -> f i = g i) -> sm n f = sm n g.
Proof. intros H. apply (bigsum_ext (N:=Rnum)). intros i Hi. apply in_seq in Hi. apply H. lia. Qed.
Lemma sm_add n f g : sm n (fun i => f i + g i) = sm n f + sm n g.
Proof. apply (bigsum_add Rnum_ring). Qed.
Lemma sm_sub n f g : sm n (fun i => f i - g i) = sm n f - sm n g.
Proof. apply (bigsum_sub Rnum_ring). Qed.
Lemma sm_l n a f : sm n (fun i => a * f i) = a * sm n f.
Proof. apply (bigsum_mul_l Rnum_ring). Qed.
Lemma sm_r n a f : sm n (fun i => f i * a) = sm n f * a.
Proof. apply (bigsum_mul_r Rnum_ring). Qed.
Lemma sm_swap n m f : sm n (fun i => sm m (fun j => f i j)) = sm m (fun j => sm n (fun i => f i j)).
Proof. apply (bigsum_swap Rnum_ring). Qed.
Lemma sm_S n f : sm (S n) f = sm n f + f n.
Proof. unfold sm. rewrite seq_S, (bigsum_app Rnum_ring). cbn. ring. Qed.
Lemma sm_0 f : sm 0 f = 0.
Proof. reflexivity. Qed.
Lemma sm_le n f g : (forall i, (i < n)%nat -> f i <= g i) -> sm n f <= sm n g.
Proof.
  induction n; intros H; [rewrite !sm_0; lra|]. rewrite !sm_S. pose proof (H n ltac:(lia)). assert (sm n f <= sm n g) by (apply IHn; intros; apply H; lia). lra.
Qed.
Lemma sm_zero n : sm n (fun _ => 0) = 0.
Proof. induction n; [apply sm_0|]. rewrite sm_S, IHn. lra. Qed.
Lemma sm_nonneg n f : (forall i, (i < n)%nat -> 0 <= f i) -> 0 <= sm n f.
Proof. intros H. rewrite <- (sm_zero n). apply sm_le. auto. Qed.
Lemma sm_const n c : sm n (fun _ => c) = INR n * c.
Proof. induction n; [rewrite sm_0; cbn; lra|]. rewrite sm_S, IHn, S_INR. lra. Qed.
Lemma sm_dl n i f : (i < n)%nat -> sm n (fun j => dl i j * f j) = f i.
Proof.
  intros Hi. assert (G : forall m, (m <= n)%nat -> sm m (fun j => dl i j * f j) = if (i <? m)%nat then f i else 0).
  { induction m; intros Hm; [rewrite sm_0; auto|]. rewrite sm_S, IHm by lia. unfold dl. destruct (Nat.eqb_spec i m) as [->|Hn].
    - destruct (Nat.ltb_spec m m), (Nat.ltb_spec m (S m)); try lia; lra.
    - destruct (Nat.ltb_spec i m), (Nat.ltb_spec i (S m)); try lia; lra. }
  rewrite G by lia. destruct (Nat.ltb_spec i n); [auto|lia].
Qed.
Lemma sm_zero_term n f : (forall i, (i < n)%nat -> 0 <= f i) -> sm n f <= 0 -> forall i, (i < n)%nat -> f i = 0.
Proof.
  induction n; intros H Hs i Hi; [lia|]. rewrite sm_S in Hs. pose proof (H n ltac:(lia)).
  assert (0 <= sm n f) by (apply sm_nonneg; intros; apply H; lia).
  destruct (Nat.eq_dec i n) as [->|]; [lra|]. apply IHn; try lia; [intros; apply H; lia|lra].
Qed.
Lemma sm_split n k f : (k <= n)%nat -> sm n f = sm k f + sm (n - k) (fun i => f (k + i)%nat).
Proof.
  intros H. replace n with (k + (n - k))%nat at 1 by lia. generalize (n - k)%nat. induction n0; [rewrite Nat.add_0_r, sm_0; lra|].
  rewrite Nat.add_succ_r, !sm_S, IHn0. lra.
Qed.

Section KF.
Context (n : nat) (G : nat -> nat -> R) (u v : nat -> nat -> R) (s : nat -> R).
(** u a i: entry a of the i-th left vector; v i b: entry b of the i-th right vector *)
Hypothesis Gsym : forall a b, (a < n)%nat -> (b < n)%nat -> G a b = G b a.
Hypothesis Gpsd : forall x : nat -> R, 0 <= sm n (fun a => sm n (fun b => x a * G a b * x b)).
Hypothesis Gsvd : forall a b, (a < n)%nat -> (b < n)%nat -> G a b = sm n (fun i => u a i * s i * v i b).
Hypothesis Uc : forall i j, (i < n)%nat -> (j < n)%nat -> sm n (fun a => u a i * u a j) = dl i j.
Hypothesis Ur : forall a b, (a < n)%nat -> (b < n)%nat -> sm n (fun i => u a i * u b i) = dl a b.
Hypothesis Vr : forall i j, (i < n)%nat -> (j < n)%nat -> sm n (fun b => v i b * v j b) = dl i j.
Hypothesis Spos : forall i, (i < n)%nat -> 0 <= s i.
Hypothesis Sdec : forall i j, (i <= j < n)%nat -> s j <= s i.

Lemma G_v i a : (i < n)%nat -> (a < n)%nat -> sm n (fun b => G a b * v i b) = s i * u a i.
Proof.
  intros Hi Ha. rewrite (sm_ext n _ (fun b => sm n (fun j => u a j * s j * (v j b * v i b)))).
  2:{ intros b Hb. rewrite Gsvd by auto. rewrite <- sm_r. apply sm_ext. intros. ring. }
  rewrite sm_swap. rewrite (sm_ext n _ (fun j => dl i j * (u a j * s j))).
  - rewrite sm_dl by auto. ring.
  - intros j Hj. rewrite sm_l, Vr by auto. unfold dl. rewrite (Nat.eqb_sym j i). ring.
Qed.
Lemma G_u i a : (i < n)%nat -> (a < n)%nat -> sm n (fun b => G a b * u b i) = s i * v i a.
Proof.
  intros Hi Ha. rewrite (sm_ext n _ (fun b => sm n (fun j => s j * v j a * (u b j * u b i)))).
  2:{ intros b Hb. rewrite Gsym, Gsvd by auto. rewrite <- sm_r. apply sm_ext. intros. ring. }
  rewrite sm_swap. rewrite (sm_ext n _ (fun j => dl i j * (s j * v j a))).
  - rewrite sm_dl by auto. ring.
  - intros j Hj. rewrite sm_l, Uc by auto. unfold dl. rewrite (Nat.eqb_sym j i). ring.
Qed.
Lemma uv i a : (i < n)%nat -> (a < n)%nat -> s i * v i a = s i * u a i.
Proof.
  intros Hi Ha. set (y := fun a => u a i - v i a).
  assert (Gy : forall a, (a < n)%nat -> sm n (fun b => G a b * y b) = - s i * y a).
  { intros b Hb. unfold y. rewrite (sm_ext n _ (fun c => G b c * u c i - G b c * v i c)) by (intros; ring). rewrite sm_sub, G_u, G_v by auto. ring. }
  pose proof (Gpsd y) as P. rewrite (sm_ext n _ (fun b => - s i * (y b * y b))) in P.
  2:{ intros b Hb. rewrite (sm_ext n _ (fun c => y b * (G b c * y c))) by (intros; ring). rewrite sm_l, Gy by auto. ring. }
  rewrite sm_l in P. pose proof (Spos i Hi) as Hs.
  assert (Q : 0 <= sm n (fun b => y b * y b)) by (apply sm_nonneg; intros; apply Rle_0_sqr).
  destruct (Req_dec (s i) 0) as [->|Hne]; [ring|].
  assert (Z : y a * y a = 0). { apply (sm_zero_term n (fun b => y b * y b)); auto; [intros; apply Rle_0_sqr|]. nra. }
  assert (y a = 0) by nra. unfold y in H. replace (v i a) with (u a i) by lra. auto.
Qed.
Lemma G_spec a b : (a < n)%nat -> (b < n)%nat -> G a b = sm n (fun i => s i * (u a i * u b i)).
Proof.
  intros Ha Hb. rewrite Gsvd by auto. apply sm_ext. intros i Hi. replace (u a i * s i * v i b) with (u a i * (s i * v i b)) by ring. rewrite uv by auto. ring.
Qed.
(** the trace of P^T G P *)
Definition qtr (k : nat) (P : nat -> nat -> R) : R := sm k (fun j => sm n (fun a => sm n (fun b => P a j * G a b * P b j))).
Lemma qtr_spec k P : qtr k P = sm n (fun i => s i * sm k (fun j => sm n (fun a => u a i * P a j) * sm n (fun a => u a i * P a j))).
Proof.
  unfold qtr. rewrite (sm_ext k _ (fun j => sm n (fun i => s i * (sm n (fun a => u a i * P a j) * sm n (fun a => u a i * P a j))))).
  - rewrite sm_swap. apply sm_ext. intros i Hi. rewrite <- sm_l. auto.
  - intros j Hj. rewrite (sm_ext n _ (fun a => sm n (fun b => sm n (fun i => s i * ((u a i * P a j) * (u b i * P b j)))))).
    2:{ intros a Ha. apply sm_ext. intros b Hb. rewrite G_spec by auto. rewrite <- sm_l, <- sm_r. apply sm_ext. intros. ring. }
    rewrite (sm_ext n _ (fun a => sm n (fun i => sm n (fun b => s i * ((u a i * P a j) * (u b i * P b j)))))) by (intros; apply sm_swap).
    rewrite sm_swap. apply sm_ext. intros i Hi. rewrite <- sm_r, <- sm_l. apply sm_ext. intros a Ha. rewrite sm_l. f_equal. rewrite sm_l. auto.
Qed.
Context (k : nat) (P : nat -> nat -> R).
Hypothesis Hk : (k <= n)%nat.
Hypothesis Pc : forall i j, (i < k)%nat -> (j < k)%nat -> sm n (fun a => P a i * P a j) = dl i j.
Let r i j := sm n (fun a => u a i * P a j).
Let c i := sm k (fun j => r i j * r i j).
Lemma c_nonneg i : 0 <= c i.
Proof. apply sm_nonneg. intros. apply Rle_0_sqr. Qed.
Lemma c_le1 i : (i < n)%nat -> c i <= 1.
Proof.
  intros Hi. set (w := fun a => sm k (fun j => r i j * P a j)).
  assert (Q : 0 <= sm n (fun a => (u a i - w a) * (u a i - w a))) by (apply sm_nonneg; intros; apply Rle_0_sqr).
  rewrite (sm_ext n _ (fun a => u a i * u a i - 2 * (u a i * w a) + w a * w a)) in Q by (intros; ring).
  rewrite sm_add, sm_sub, sm_l, Uc in Q by auto.
  assert (E1 : sm n (fun a => u a i * w a) = c i).
  { unfold w. rewrite (sm_ext n _ (fun a => sm k (fun j => r i j * (u a i * P a j)))) by (intros; rewrite <- sm_l; apply sm_ext; intros; ring).
    rewrite sm_swap. unfold c. apply sm_ext. intros j Hj. rewrite sm_l. reflexivity. }
  assert (E2 : sm n (fun a => w a * w a) = c i).
  { unfold w. rewrite (sm_ext n _ (fun a => sm k (fun j => sm k (fun j' => r i j * r i j' * (P a j * P a j'))))).
    2:{ intros a Ha. rewrite <- sm_r. apply sm_ext. intros j Hj. rewrite <- sm_l. apply sm_ext. intros. ring. }
    rewrite sm_swap. unfold c. apply sm_ext. intros j Hj. rewrite sm_swap.
    rewrite (sm_ext k _ (fun j' => dl j j' * (r i j * r i j'))) by (intros j' Hj'; rewrite sm_l, Pc by auto; ring). rewrite sm_dl by auto. auto. }
  rewrite E1, E2 in Q. unfold dl in Q. rewrite Nat.eqb_refl in Q. lra.
Qed.
Lemma c_sum : sm n c = INR k.
Proof.
  unfold c. rewrite sm_swap. rewrite (sm_ext k _ (fun _ => 1)); [rewrite sm_const; ring|].
  intros j Hj. unfold r. rewrite (sm_ext n _ (fun i => sm n (fun a => sm n (fun b => P a j * P b j * (u a i * u b i))))).
  2:{ intros i Hi. rewrite <- sm_r. apply sm_ext. intros a Ha. rewrite <- sm_l. apply sm_ext. intros. ring. }
  rewrite sm_swap. rewrite (sm_ext n _ (fun a => P a j * P a j)).
  - rewrite Pc by auto. unfold dl. rewrite Nat.eqb_refl. auto.
  - intros a Ha. rewrite sm_swap. rewrite (sm_ext n _ (fun b => dl a b * (P a j * P b j))) by (intros b Hb; rewrite sm_l, Ur by auto; ring).
    apply sm_dl. auto.
Qed.
Lemma top_sum : qtr k u = sm k s.
Proof.
  rewrite qtr_spec. rewrite (sm_ext n _ (fun i => s i * (if (i <? k)%nat then 1 else 0))).
  - rewrite (sm_split n k) by auto. rewrite (sm_ext k _ s).
    2:{ intros i Hi. destruct (Nat.ltb_spec i k); [ring|lia]. }
    rewrite (sm_ext (n - k) _ (fun _ => 0)), sm_zero; [ring|]. intros i Hi. destruct (Nat.ltb_spec (k + i) k); [lia|ring].
  - intros i Hi. f_equal. destruct (Nat.ltb_spec i k).
    + rewrite (sm_ext k _ (fun j => dl i j * dl i j)) by (intros j Hj; rewrite Uc by lia; auto). rewrite sm_dl by auto. unfold dl. rewrite Nat.eqb_refl. auto.
    + rewrite (sm_ext k _ (fun _ => 0)), sm_zero; [auto|]. intros j Hj. rewrite Uc by lia. unfold dl. destruct (Nat.eqb_spec i j); [lia|ring].
Qed.
Theorem kyfan : qtr k P <= qtr k u.
Proof.
  rewrite top_sum, qtr_spec. change (sm n (fun i => s i * c i) <= sm k s).
  destruct (Nat.eq_dec k n) as [E|Hkn].
  - rewrite E. apply sm_le. intros i Hi. pose proof (Spos i Hi). pose proof (c_le1 i Hi). pose proof (c_nonneg i). nra.
  - pose proof c_sum as Cs. rewrite (sm_split n k) in Cs by auto. rewrite (sm_split n k) by auto. set (t := s k).
    assert (A1 : sm (n - k) (fun i => s (k + i)%nat * c (k + i)%nat) <= sm (n - k) (fun i => t * c (k + i)%nat)).
    { apply sm_le. intros i Hi. pose proof (Sdec k (k + i) ltac:(lia)). pose proof (c_nonneg (k + i)). unfold t. nra. }
    rewrite sm_l in A1.
    assert (A2 : sm k (fun i => s i * c i) + t * sm k (fun i => 1 - c i) <= sm k s).
    { rewrite <- sm_l, <- sm_add. apply sm_le. intros i Hi. pose proof (Sdec i k ltac:(lia)). pose proof (c_le1 i ltac:(lia)). unfold t. nra. }
    rewrite sm_sub, sm_const in A2. replace (sm (n - k) (fun i => c (k + i)%nat)) with (INR k - sm k c) in A1 by lra.
    change (fun i => c i) with c in *. lra.
Qed.
End KF.
