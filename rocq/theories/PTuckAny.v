(** A Tucker approximation with arbitrary factors is one with orthonormal factors and another core *)
From Coq Require Import List ZArith QArith Reals Lra Lia Bool Arith.
From Verif Require Import Base Num NumR Tensor Spec Spec2 Spec3 Spec4 Spec5 Spec7 Spec18 MCommon PBase PTensor PSum PMttkrp PMat PMatAlg PGrad PResid PTtm PTucker PTuckFit PKyFan PTuckMono PHosvdQ PQR.
Import ListNotations.
Local Close Scope Q_scope.
Local Open Scope R_scope.
Local Notation RL := Rnum_ring.
Lemma rmix (a b c : Rnum) : nmul (nmul a b) c = nmul a (nmul c b).
Proof. change (a * b * c = a * (c * b)). ring. Qed.

Definition mat_of (n r : nat) (f : nat -> nat -> R) : tensor Rnum := tabulate (N:=Rnum) [n; r] (fun x => f (nth 0 x 0%nat) (nth 1 x 0%nat)).
Lemma mat_of_mat n r f : is_mat (mat_of n r f) n r.
Proof. split; [reflexivity|apply tabulate_wf]. Qed.
Lemma mat_of_el n r f a i : (a < n)%nat -> (i < r)%nat -> el (mat_of n r f) a i = f a i.
Proof. intros Ha Hi. unfold el, mat_of. rewrite at_tabulate; [reflexivity|]. repeat constructor; auto. Qed.
Lemma qr_mat (P : tensor Rnum) n r : (r <= n)%nat -> is_mat P n r ->
  exists (Q : tensor Rnum) B, is_mat Q n r /\ ortho_cols Q r /\
    forall a i, (a < n)%nat -> (i < r)%nat -> el P a i = sm r (fun k => el Q a k * B k i).
Proof.
  intros Hr HP. destruct (qr_exists n r (el P) Hr) as (Q & B & HQ & HB). exists (mat_of n r Q), B.
  split; [apply mat_of_mat|]. split.
  - apply (gram_ortho _ n r (mat_of_mat n r Q)). intros a b Ha Hb. change (sm n (fun i => el (mat_of n r Q) i a * el (mat_of n r Q) i b) = dl a b).
    rewrite (sm_ext n _ (fun i => Q i a * Q i b)) by (intros; rewrite !mat_of_el by auto; auto). apply HQ; auto.
  - intros a i Ha Hi. rewrite (HB a i Ha Hi). apply sm_ext. intros k Hk. rewrite mat_of_el by auto. auto.
Qed.
Lemma choose_list {X Y} (d : X) (e : Y) n (R : nat -> X -> Y -> Prop) : (forall m, (m < n)%nat -> exists x y, R m x y) ->
  exists (xs : list X) (ys : list Y), length xs = n /\ length ys = n /\ forall m, (m < n)%nat -> R m (nth m xs d) (nth m ys e).
Proof.
  induction n; intros H; [exists [], []; split; [auto|split; [auto|lia]]|].
  destruct IHn as (xs & ys & L1 & L2 & HR); [intros; apply H; lia|]. destruct (H n ltac:(lia)) as (x & y & Hxy).
  exists (xs ++ [x]), (ys ++ [y]). rewrite !app_length, L1, L2. split; [simpl; lia|]. split; [simpl; lia|].
  intros m Hm. destruct (Nat.eq_dec m n) as [->|].
  - rewrite !app_nth2 by lia. rewrite L1, L2, Nat.sub_diag. exact Hxy.
  - rewrite !app_nth1 by lia. apply HR. lia.
Qed.
Theorem tucker_any (V C : tensor Rnum) P ranks : tucker_ok V P ranks -> (forall m, (m < order V)%nat -> (nth m ranks 0 <= nth m (lens V) 0)%nat) -> lens C = ranks ->
  exists Q C', tucker_ok V Q ranks /\ ortho_factors Q ranks /\ lens C' = ranks /\ tucker_full C' Q = tucker_full C P.
Proof.
  intros HP HR HC. pose proof HP as (HV & LP & Lr & HM).
  destruct (choose_list (X:=tensor Rnum) (Y:=nat -> nat -> R) tnil (fun _ _ => 0) (order V) (fun m Q B => is_mat Q (nth m (lens V) 0%nat) (nth m ranks 0%nat) /\ ortho_cols Q (nth m ranks 0%nat) /\
    forall a i, (a < nth m (lens V) 0)%nat -> (i < nth m ranks 0)%nat -> el (fac P m) a i = sm (nth m ranks 0%nat) (fun k => el Q a k * B k i))) as (Q & Bs & LQ & LB & H).
  { intros m Hm. apply qr_mat; auto. }
  assert (HQ : tucker_ok V Q ranks) by (split; [auto|]; split; [auto|]; split; [auto|]; intros m Hm; apply (H m Hm)).
  set (B := fun m => nth m Bs (fun _ _ => 0)).
  set (C' := tabulate (N:=Rnum) ranks (fun y' => bigsum (N:=Rnum) (all_idx ranks) (fun y => at_ C y * bigprod (N:=Rnum) (seq 0 (order V)) (fun m => B m (nth m y' 0%nat) (nth m y 0%nat))))).
  exists Q, C'. split; [exact HQ|]. split; [intros m Hm; apply (H m); lia|]. split; [reflexivity|].
  assert (L1 : lens (tucker_full C' Q) = lens V) by (apply (full_gen_lens V Q C' ranks); auto).
  assert (L2 : lens (tucker_full C P) = lens V) by (apply (full_gen_lens V P C ranks); auto).
  apply tensor_ext; [apply tabulate_wf|apply tabulate_wf|congruence|]. intros x Hx. rewrite L1 in Hx.
  rewrite (full_gen_at RL V Q C' ranks x HQ eq_refl Hx), (full_gen_at RL V P C ranks x HP HC Hx).
  transitivity (bigsum (N:=Rnum) (all_idx ranks) (fun y' => bigsum (N:=Rnum) (all_idx ranks) (fun y => at_ C y * bigprod (N:=Rnum) (seq 0 (order V)) (fun m => el (fac Q m) (nth m x 0%nat) (nth m y' 0%nat) * B m (nth m y' 0%nat) (nth m y 0%nat))))).
  { apply bigsum_ext. intros y' Hy'. apply all_idx_in in Hy'. unfold C'. rewrite at_tabulate by auto. rewrite <- (bigsum_mul_r RL). apply bigsum_ext. intros y _.
    unfold tpr. rewrite (bigprod_mul RL). apply rmix. }
  rewrite (bigsum_swap RL). apply bigsum_ext. intros y Hy. apply all_idx_in in Hy. rewrite (bigsum_mul_l RL). f_equal.
  rewrite <- Lr. etransitivity; [apply (sum_prod RL ranks (fun m k => el (fac Q m) (nth m x 0%nat) k * B m k (nth m y 0%nat)))|]. unfold tpr. rewrite Lr.
  apply bigprod_ext. intros m Hm. apply in_seq in Hm. destruct (H m ltac:(lia)) as (_ & _ & E). symmetry. apply E.
  - apply inb_nth; auto. unfold order in *; lia.
  - apply inb_nth; auto. lia.
Qed.
