(** Over the reals: how much an exact update lowers the objective, against the gradient it recorded *)
From Coq Require Import List ZArith Lia Bool Arith Reals Lra Permutation.
From Verif Require Import Base Num NumR Tensor Spec Spec3 Spec10 Spec11 MCommon PBase PTensor PSum PMttkrp PMat PMatAlg PResid PGrad PRank PNormalize PALS PMono PMono2 PTuckMono.
Import ListNotations.
Local Open Scope R_scope.
Local Notation RL := Rnum_ring.
Local Notation bs := (bigsum (N:=Rnum)).

Lemma bs_cons {X} (a : X) l (f : X -> R) : bs (a :: l) f = f a + bs l f.
Proof. reflexivity. Qed.
Lemma bs_le {X} (l : list X) (f g : X -> R) : (forall x, In x l -> f x <= g x) -> bs l f <= bs l g.
Proof.
  induction l as [|a l IH]; intros H; [cbn; lra|]. rewrite !bs_cons. apply Rplus_le_compat; [apply H; left; auto|apply IH; intros; apply H; right; auto].
Qed.
Lemma bs_ext {X} l (f g : X -> R) : (forall x, In x l -> f x = g x) -> bs l f = bs l g.
Proof. intros H. apply (bigsum_ext (N:=Rnum) l f g). exact H. Qed.
Lemma bs_mul_l {X} (c : R) l (f : X -> R) : bs l (fun x => c * f x) = c * bs l f.
Proof. exact (bigsum_mul_l RL l c f). Qed.
Lemma bs_mul_r {X} (c : R) l (f : X -> R) : bs l (fun x => f x * c) = bs l f * c.
Proof. exact (bigsum_mul_r RL l c f). Qed.
Lemma sq_le (x y : R) : 0 <= y -> x * x <= y * y -> x <= y.
Proof. intros Hy H. destruct (Rle_dec x 0); [lra|]. apply Rsqr_incr_0; unfold Rsqr; lra. Qed.
Lemma cauchy {X} (l : list X) (a b : X -> R) :
  bs l (fun x => a x * b x) * bs l (fun x => a x * b x) <= bs l (fun x => a x * a x) * bs l (fun x => b x * b x).
Proof.
  induction l as [|x l IH]; [cbn; lra|]. rewrite !bs_cons.
  assert (HA : 0 <= bs l (fun x => a x * a x)) by (apply bigsum_nonneg; intros; apply Rle_0_sqr).
  assert (HB : 0 <= bs l (fun x => b x * b x)) by (apply bigsum_nonneg; intros; apply Rle_0_sqr).
  set (S := bs l (fun x => a x * b x)) in *. set (A := bs l (fun x => a x * a x)) in *. set (B := bs l (fun x => b x * b x)) in *. clearbody S A B.
  generalize dependent (a x). generalize dependent (b x). intros v u.
  assert (H : 2 * (S * (u * v)) <= A * (v * v) + B * (u * u)).
  { assert (0 <= v * v) by apply Rle_0_sqr. assert (0 <= u * u) by apply Rle_0_sqr.
    assert (0 <= A * (v * v)) by (apply Rmult_le_pos; auto). assert (0 <= B * (u * u)) by (apply Rmult_le_pos; auto).
    apply sq_le; [lra|].
    assert (K1 : (S * S) * ((u * v) * (u * v)) <= (A * B) * ((u * v) * (u * v))) by (apply Rmult_le_compat_r; [apply Rle_0_sqr|auto]).
    assert (K2 : 0 <= (A * (v * v) - B * (u * u)) * (A * (v * v) - B * (u * u))) by apply Rle_0_sqr.
    nra. }
  nra.
Qed.
(** a symmetric positive semidefinite matrix given by vectors: |u S|^2 <= (u S u) trace S *)
Lemma gram_bound {Y} (ys : list Y) (a : Y -> nat -> R) (S : nat -> nat -> R) (rk : nat) (u : nat -> R) :
  (forall r l, (r < rk)%nat -> (l < rk)%nat -> S r l = bs ys (fun y => a y r * a y l)) ->
  bs (seq 0 rk) (fun l => bs (seq 0 rk) (fun r => u r * S r l) * bs (seq 0 rk) (fun r => u r * S r l))
  <= bs (seq 0 rk) (fun l => S l l) * bs (seq 0 rk) (fun l => bs (seq 0 rk) (fun r => u r * S r l) * u l).
Proof.
  intros HS. set (b := fun y => bs (seq 0 rk) (fun r => u r * a y r)).
  assert (E : forall l, (l < rk)%nat -> bs (seq 0 rk) (fun r => u r * S r l) = bs ys (fun y => b y * a y l)).
  { intros l Hl. transitivity (bs (seq 0 rk) (fun r => bs ys (fun y => u r * (a y r * a y l)))).
    - apply bs_ext. intros r Hr. apply in_seq in Hr. rewrite HS by lia. symmetry. apply bs_mul_l.
    - rewrite (bigsum_swap RL). apply bs_ext. intros y _. change (b y * a y l) with (bs (seq 0 rk) (fun r => u r * a y r) * a y l). rewrite <- bs_mul_r. apply bs_ext. intros r _. cbn. ring. }
  assert (EQ : bs (seq 0 rk) (fun l => bs (seq 0 rk) (fun r => u r * S r l) * u l) = bs ys (fun y => b y * b y)).
  { transitivity (bs (seq 0 rk) (fun l => bs ys (fun y => b y * a y l * u l))).
    - apply bs_ext. intros l Hl. apply in_seq in Hl. rewrite E by lia. symmetry. apply bs_mul_r.
    - rewrite (bigsum_swap RL). apply bs_ext. intros y _. change (b y * b y) with (b y * bs (seq 0 rk) (fun r => u r * a y r)). rewrite <- bs_mul_l. apply bs_ext. intros l _. cbn. ring. }
  rewrite EQ.   rewrite <- bs_mul_r. apply bs_le. intros l Hl. apply in_seq in Hl. rewrite E, HS by lia.
  rewrite (Rmult_comm (bs ys (fun y => a y l * a y l))). apply cauchy.
Qed.

Inductive lhs_ix := Fiber (x : list nat) | Diag (j : nat).
(** *** the system matrix of a mode is such a matrix *)
Section Lhs.
Context (V : tensor Rnum) (W : list (tensor Rnum)) (rk n : nat) (lambda : R).
Hypothesis HW : factors_ok V W rk.
Hypothesis Hn : (n < order V)%nat.
Hypothesis Hl : 0 <= lambda.
Let len := nth n (lens V) 0%nat.
Let S := als_lhs (lambda : Rnum) W rk n.
Lemma el_lhs r l : (r < rk)%nat -> (l < rk)%nat -> el S r l = hgram_at W n r l + lambda * (if Nat.eqb r l then 1 else 0).
Proof.
  intros Hr Hc. unfold S, als_lhs. rewrite (el_madd _ _ rk rk) by (auto; apply hgram_mat). unfold hgram. unfold el at 1. rewrite at_tabulate by (apply inb2; auto).
  cbn [nth]. rewrite (el_mscal _ _ rk rk) by (auto; apply mdiag_mat). unfold mid. rewrite el_mdiag by auto. reflexivity.
Qed.
Lemma hgram_sym r l : hgram_at W n r l = hgram_at W n l r.
Proof. unfold hgram_at, gram_at. apply bigprod_ext. intros m _. apply bs_ext. intros i _. apply Rmult_comm. Qed.
Lemma lhs_sym : symmetric S rk.
Proof. intros r l Hr Hc. rewrite !el_lhs by auto. rewrite hgram_sym, (Nat.eqb_sym r l). reflexivity. Qed.
Definition lhs_vec (y : lhs_ix) (r : nat) : R :=
  match y with Fiber x => zrow W n x r | Diag j => if Nat.eqb j r then sqrt lambda else 0 end.
Definition lhs_ys : list lhs_ix :=
  map Fiber (filter (fun x => Nat.eqb (nth n x 0%nat) 0) (all_idx (lens V))) ++ map Diag (seq 0 rk).
Lemma lhs_gram r l : (0 < len)%nat -> (r < rk)%nat -> (l < rk)%nat -> el S r l = bs lhs_ys (fun y => lhs_vec y r * lhs_vec y l).
Proof.
  intros H0 Hr Hc. rewrite el_lhs by auto. unfold lhs_ys. rewrite (bigsum_app RL), !bigsum_map. cbn [lhs_vec].
  pose proof (zrow_gram RL V W rk n 0 r l HW Hn H0) as E.
  change (bs (filter (fun x => Nat.eqb (nth n x 0%nat) 0) (all_idx (lens V))) (fun x => zrow W n x r * zrow W n x l) = hgram_at W n r l) in E. rewrite E.
  change (hgram_at W n r l + lambda * (if r =? l then 1 else 0) = hgram_at W n r l + bs (seq 0 rk) (fun j => (if j =? r then sqrt lambda else 0) * (if j =? l then sqrt lambda else 0))).
  f_equal. pose proof (PResid.bigsum_delta RL r rk (fun _ => lambda * (if Nat.eqb r l then 1 else 0)) Hr) as D. cbv beta in D.
  rewrite <- D. apply bs_ext. intros j _. destruct (Nat.eqb_spec j r) as [->|]; [|change (0 = 0 * (if Nat.eqb j l then sqrt lambda else 0)); ring].
  destruct (Nat.eqb r l); [rewrite sqrt_sqrt by auto; ring|ring].
Qed.
Definition lhs_trace : R := bs (seq 0 rk) (fun l => el S l l).
(** |D S|^2 <= trace S * <D S, D> *)
Lemma lhs_bound D : is_mat D len rk -> minner len rk (mmul D S) (mmul D S) <= lhs_trace * minner len rk (mmul D S) D.
Proof.
  intros HD. assert (HS : is_mat S rk rk) by apply lhs_mat. unfold minner.
  assert (EM : forall i j, (i < len)%nat -> (j < rk)%nat -> el (mmul D S) i j = bs (seq 0 rk) (fun r => el D i r * el S r j)).
  { intros i j Hi Hj. rewrite (el_mmul D S len rk rk) by auto. reflexivity. }
  rewrite <- bs_mul_l. apply bs_le. intros i Hi. apply in_seq in Hi.
  pose proof (gram_bound lhs_ys lhs_vec (fun r l => el S r l) rk (fun r => el D i r) (fun r l Hr Hc => lhs_gram r l ltac:(lia) Hr Hc)) as G. cbv beta in G.
  erewrite bigsum_ext; [|intros j Hj; apply in_seq in Hj; rewrite EM by lia; reflexivity].
  erewrite (bigsum_ext (seq 0 rk) (fun j => nmul (el (mmul D S) i j) (el D i j))); [|intros j Hj; apply in_seq in Hj; rewrite EM by lia; reflexivity].
  exact G.
Qed.
End Lhs.

(** replacing factor n by the solution X of the normal equations: the objective falls by <D S, D>, and the gradient before is D S *)
Lemma quad_decrease (G M X B : tensor Rnum) r k : is_mat B r k -> is_mat X r k -> is_mat G k k -> symmetric G k -> mmul X G = M ->
  let D := msub B X in msub (mmul B G) M = mmul D G /\ quad r k G M B = quad r k G M X + minner r k (mmul D G) D.
Proof.
  intros HB HX HG Hs EM D. assert (HD : is_mat D r k) by (apply msub_mat'; auto).
  assert (HBG : is_mat (mmul B G) r k) by (eapply mmul_mat; eauto). assert (HXG : is_mat (mmul X G) r k) by (eapply mmul_mat; eauto).
  assert (HDG : is_mat (mmul D G) r k) by (eapply mmul_mat; eauto).
  assert (E : mmul D G = msub (mmul B G) (mmul X G)) by (unfold D; apply (mmul_sub_l RL B X G r k k); auto).
  split; [rewrite <- EM; symmetry; exact E|]. unfold quad. rewrite E.
  assert (ET : mtrans G = G).
  { apply (mat_ext _ _ k k); auto; [apply mtrans_mat; auto|]. intros i j Hi Hj. rewrite (el_mtrans G k k) by auto. apply Hs; auto. }
  assert (SY : minner r k (mmul X G) B = minner r k (mmul B G) X).
  { rewrite (minner_mul RL r k k X G B) by auto. rewrite ET. apply (minner_sym RL). }
  assert (E1 : forall A, is_mat A r k -> minner r k A D = minner r k A B - minner r k A X).
  { intros A HA. rewrite (minner_sym RL r k A D). unfold D. rewrite (minner_sub RL r k B X A) by auto. rewrite (minner_sym RL r k B A), (minner_sym RL r k X A). reflexivity. }
  rewrite (minner_sub RL r k (mmul B G) (mmul X G) D) by auto. rewrite !E1 by auto.
  rewrite <- EM. rewrite (minner_sym RL r k B (mmul X G)), (minner_sym RL r k X (mmul X G)), SY.
  repeat match goal with |- context [minner ?a ?b ?c ?d] => generalize (minner a b c d) end. intros. cbn in *. match goal with |- ?l = ?r => change (@eq R l r) end. ring. 
Qed.
Theorem update_decrease (V : tensor Rnum) W rk n (lambda : R) (X : tensor Rnum) : factors_ok V W rk -> (n < order V)%nat -> 0 <= lambda ->
  is_mat X (nth n (lens V) 0%nat) rk -> mmul X (als_lhs (lambda : Rnum) W rk n) = mttkrp V W n rk ->
  let S := als_lhs (lambda : Rnum) W rk n in let Gn := msub (mmul (fac W n) S) (mttkrp V W n rk) in
  factors_ok V (setf W n X) rk /\
  objective (lambda : Rnum) V (setf W n X) rk <= objective (lambda : Rnum) V W rk /\
  fro2 Gn <= lhs_trace W rk n lambda * (objective (lambda : Rnum) V W rk - objective (lambda : Rnum) V (setf W n X) rk) /\ 0 <= lhs_trace W rk n lambda.
Proof.
  intros HW Hn Hl HX EX S Gn. assert (HL : length W = order V) by apply HW. assert (HA : is_mat (fac W n) (nth n (lens V) 0%nat) rk) by (apply HW; auto).
  assert (HS : is_mat S rk rk) by apply lhs_mat.
  destruct (quad_decrease S (mttkrp V W n rk) X (fac W n) (nth n (lens V) 0%nat) rk HA HX HS (lhs_sym W rk n lambda) EX) as [EG EQ]. fold Gn in EG.
  destruct (obj_quad RL (lambda : Rnum) V W rk n HW Hn) as (c & Hc).
  assert (E0 : objective (lambda : Rnum) V W rk = objective (lambda : Rnum) V (setf W n X) rk + minner (nth n (lens V) 0%nat) rk (mmul (msub (fac W n) X) S) (msub (fac W n) X)).
  { rewrite <- (setf_self W n) at 1 by lia. rewrite !Hc by auto. fold S. rewrite EQ. cbn [nadd Rnum]. match goal with |- ?l = ?r => change (@eq R l r) end. ring. }
  set (D := msub (fac W n) X) in *. assert (HD : is_mat D (nth n (lens V) 0%nat) rk) by (apply msub_mat'; auto).
  split; [apply setf_ok; auto|].
  pose proof (lhs_bound V W rk n lambda HW Hn Hl D HD) as B. fold S in B.
  assert (HDS : is_mat (mmul D S) (nth n (lens V) 0%nat) rk) by (eapply mmul_mat; eauto).
  assert (T : 0 <= lhs_trace W rk n lambda).
  { unfold lhs_trace. apply bigsum_nonneg. intros l Hi. apply in_seq in Hi. rewrite (el_lhs W rk n lambda) by lia. rewrite Nat.eqb_refl, Rmult_1_r.
    apply Rplus_le_le_0_compat; auto. unfold hgram_at. induction (others n (length W)) as [|m ms IH]; [cbn; lra|].
    change (0 <= gram_at (fac W m) l l * bigprod (N:=Rnum) ms (fun m => gram_at (fac W m) l l)). apply Rmult_le_pos; auto.
    apply bigsum_nonneg. intros i _. apply Rle_0_sqr. }
  assert (Q : 0 <= minner (nth n (lens V) 0%nat) rk (mmul D S) D).
  { destruct (Req_dec (lhs_trace W rk n lambda) 0) as [Z|Z].
    - (* no trace: every vector is zero *)
      pose proof (minner_pos Rnum_ord (nth n (lens V) 0%nat) rk (mmul D S)) as P. apply Rnle in P. change (n0 (n:=Rnum)) with 0 in P. rewrite Z, Rmult_0_l in B.
      assert (Z0 : minner (nth n (lens V) 0%nat) rk (mmul D S) (mmul D S) = 0) by (apply Rle_antisym; auto).
      apply Req_le. symmetry. unfold minner. apply (bigsum_zero RL). intros i Hi. apply (bigsum_zero RL). intros j Hj.
      replace (el (mmul D S) i j) with 0; [apply Rmult_0_l|]. symmetry.
      assert (K : forall {X} (l : list X) (f : X -> R), (forall x, In x l -> 0 <= f x) -> bs l f = 0 -> forall x, In x l -> f x = 0).
      { clear. induction l as [|a l IH]; intros f Hp E x Hx; [destruct Hx|]. rewrite bs_cons in E.
        assert (0 <= f a) by (apply Hp; left; auto). assert (0 <= bs l f) by (apply bigsum_nonneg; intros; apply Hp; right; auto).
        destruct Hx as [<-|Hx]; [lra|]. apply IH; auto; [intros; apply Hp; right; auto|lra]. }
      unfold minner in Z0.
      pose proof (K _ _ _ (fun i _ => bigsum_nonneg _ _ (fun j _ => Rle_0_sqr (el (mmul D S) i j))) Z0 i Hi) as K1. cbv beta in K1.
      pose proof (K _ _ _ (fun j _ => Rle_0_sqr (el (mmul D S) i j)) K1 j Hj) as K2. unfold Rsqr in K2. cbn in K2. destruct (Rmult_integral _ _ K2); auto.
    - apply Rmult_le_reg_l with (lhs_trace W rk n lambda); [lra|]. rewrite Rmult_0_r.
      pose proof (minner_pos Rnum_ord (nth n (lens V) 0%nat) rk (mmul D S)) as P. apply Rnle in P. change (n0 (n:=Rnum)) with 0 in P. eapply Rle_trans; [exact P|exact B]. }
  split; [rewrite E0; cbn in *; lra|]. split; [|exact T]. rewrite EG. unfold fro2. rewrite (is_mat_nrow _ _ _ HDS), (is_mat_ncol _ _ _ HDS).
  eapply Rle_trans; [exact B|]. apply Req_le. rewrite E0. match goal with |- ?l = ?r => change (@eq R l r) end. ring.
Qed.
