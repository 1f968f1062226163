(** The literal matrix statements: products, Gram matrices, linear combinations *)
From Coq Require Import List ZArith Lia Bool Arith Permutation Ring.
From Verif Require Import Base Num Tensor Spec MCommon PBase PTensor PSum PMttkrp.
Import ListNotations.

Section P.
Context {N : num} (RL : ring_laws N).
Let RT : ring_theory (@n0 N) n1 nadd nmul nsub nopp (@eq N) := RL.
Add Ring Nring : RT.
Local Open Scope num_scope.
Implicit Types A B C M : tensor N.

Definition mk (r c : nat) (f : nat -> nat -> N) : tensor N :=
  tabulate [r; c] (fun x => f (nth 0 x 0%nat) (nth 1 x 0%nat)).
Lemma mk_mat r c f : is_mat (mk r c f) r c.
Proof. split; [reflexivity|apply tabulate_wf]. Qed.
Lemma inb2 r c i j : i < r -> j < c -> inb [r; c] [i; j].
Proof. intros. repeat constructor; auto. Qed.
Lemma inb2_inv r c idx : inb [r; c] idx -> exists i j, idx = [i; j] /\ i < r /\ j < c.
Proof. intros H. inversion H; subst. inversion H4; subst. inversion H6; subst. eauto. Qed.
Lemma el_mk r c f i j : i < r -> j < c -> el (mk r c f) i j = f i j.
Proof. intros. unfold el, mk. rewrite at_tabulate by (apply inb2; auto). auto. Qed.
Lemma mat_ext A B r c : is_mat A r c -> is_mat B r c ->
  (forall i j, i < r -> j < c -> el A i j = el B i j) -> A = B.
Proof.
  intros [HA wA] [HB wB] H. apply tensor_ext; auto; [congruence|].
  intros idx Hi. rewrite HA in Hi. apply inb2_inv in Hi as (i & j & -> & Hi & Hj). apply H; auto.
Qed.
Lemma mat_mk A r c f : is_mat A r c -> (forall i j, i < r -> j < c -> el A i j = f i j) -> A = mk r c f.
Proof. intros H1 H2. apply (mat_ext A (mk r c f) r c); auto; [apply mk_mat|]. intros. rewrite el_mk; auto. Qed.
Lemma mk_ext r c f g : (forall i j, i < r -> j < c -> f i j = g i j) -> mk r c f = mk r c g.
Proof. intros H. apply mat_mk; [apply mk_mat|]. intros. rewrite el_mk; auto. Qed.
Lemma mat_eta A r c : is_mat A r c -> A = mk r c (el A).
Proof. intros. apply mat_mk; auto. Qed.
Lemma is_mat_nrow A r c : is_mat A r c -> nrow A = r.
Proof. intros [H _]. unfold nrow. rewrite H. auto. Qed.
Lemma is_mat_ncol A r c : is_mat A r c -> ncol A = c.
Proof. intros [H _]. unfold ncol. rewrite H. auto. Qed.

Definition eab (a b : Z) (i j : nat) : env := upd (upd (fun _ => 0%nat) a i) b j.

Lemma assign_mat d (acc : bool) C a b (ts : list (term N)) (f : nat -> nat -> N) :
  a <> b -> lens C = [d a; d b] -> (forall t, In t ts -> facs_fit d (facs t)) ->
  (forall i j, i < d a -> j < d b ->
     (if acc then el C i j + tsval d [a; b] ts (eab a b i j) else tsval d [a; b] ts (eab a b i j)) = f i j) ->
  assign acc C [a; b] ts = Ok (mk (d a) (d b) f).
Proof.
  intros Hab HC Hts H.
  destruct (assign_rep d acc C [a; b] ts) as (B & E & (R1 & R2 & R3)).
  - constructor; [simpl; intros [->|[]]; auto|]. constructor; auto. constructor.
  - auto.
  - auto.
  - rewrite E. f_equal. apply mat_mk; [split; auto|].
    intros i j Hi Hj. rewrite <- H by auto.
    specialize (R3 (eab a b i j)). unfold el.
    replace (map (eab a b i j) [a; b]) with [i; j] in R3.
    + apply R3. intros c Hc; simpl in Hc; destruct Hc as [E1|[E1|[]]]; subst c; unfold eab; rewrite ?upd_same; auto. rewrite upd_other, upd_same; auto.
    + simpl. unfold eab. rewrite upd_same, upd_other, upd_same; auto.
Qed.

Definition d3 (r c k : nat) (ch : Z) : nat :=
  if Z.eqb ch ch_i then r else if Z.eqb ch ch_j then c else k.

Ltac ev := cbv -[nadd nmul nopp nsub n0 n1 bigsum at_ el seq car gram_at].
Ltac fit := let t := fresh "t" in let p := fresh "p" in let H := fresh "H" in
  intros t H; simpl in H; repeat (destruct H as [H|H]; [subst t|]); try contradiction;
  intros p H; simpl in H; repeat (destruct H as [H|H]; [subst p|]); try contradiction; simpl; unfold d3; simpl; auto.

(** C["ij"] = A["ik"] * B["kj"] *)
Lemma assign_mm C A B r k c :
  lens C = [r; c] -> lens A = [r; k] -> lens B = [k; c] ->
  assign false C sij [prodt [(A, sik); (B, skj)]]
  = Ok (mk r c (fun i j => bigsum (seq 0 k) (fun x => el A i x * el B x j))).
Proof.
  intros HC HA HB. apply (assign_mat (d3 r c k)); auto.
  - discriminate.
  - fit.
  - intros i j Hi Hj. ev. rewrite (Rmul_1_l RL). apply bigsum_ext. intros x _. unfold el. ring.
Qed.
(** S["ij"] = A["ki"] * A["kj"] *)
Lemma assign_gram C A r k : lens C = [r; r] -> lens A = [k; r] ->
  assign false C sij [prodt [(A, ski); (A, skj)]] = Ok (mk r r (gram_at A)).
Proof.
  intros HC HA. apply (assign_mat (d3 r r k)); auto.
  - discriminate.
  - fit.
  - intros i j Hi Hj. ev. rewrite (Rmul_1_l RL). unfold gram_at, nrow. rewrite HA.
    apply bigsum_ext. intros x _. unfold el. ring.
Qed.
(** S["ij"] = S["ij"] * (A["ki"] * A["kj"]) *)
Lemma assign_hgram C A r k : lens C = [r; r] -> lens A = [k; r] ->
  assign false C sij [prodt [(C, sij); (A, ski); (A, skj)]]
  = Ok (mk r r (fun i j => el C i j * gram_at A i j)).
Proof.
  intros HC HA. apply (assign_mat (d3 r r k)); auto.
  - discriminate.
  - fit.
  - intros i j Hi Hj. ev. rewrite (Rmul_1_l RL). unfold gram_at, nrow. rewrite HA.
    rewrite <- (bigsum_mul_l RL). apply bigsum_ext. intros x _. unfold el. ring.
Qed.
(** C["ij"] = a * A["ij"] *)
Lemma assign_scal C A a r c : lens C = [r; c] -> lens A = [r; c] ->
  assign false C sij [mkTerm a [(A, sij)]] = Ok (mk r c (fun i j => a * el A i j)).
Proof.
  intros HC HA. apply (assign_mat (d3 r c 0)); auto.
  - discriminate.
  - fit.
  - intros i j Hi Hj. ev. unfold el. ring.
Qed.
(** C["ij"] = a * A["ij"] + b * B["ij"] *)
Lemma assign_lin C A B a b r c : lens C = [r; c] -> lens A = [r; c] -> lens B = [r; c] ->
  assign false C sij [mkTerm a [(A, sij)]; mkTerm b [(B, sij)]]
  = Ok (mk r c (fun i j => a * el A i j + b * el B i j)).
Proof.
  intros HC HA HB. apply (assign_mat (d3 r c 0)); auto.
  - discriminate.
  - fit.
  - intros i j Hi Hj. ev. unfold el. ring.
Qed.
(** C["ij"] += A["ij"] *)
Lemma assign_addto C A r c : lens C = [r; c] -> lens A = [r; c] ->
  assign true C sij [prodt [(A, sij)]] = Ok (mk r c (fun i j => el C i j + el A i j)).
Proof.
  intros HC HA. apply (assign_mat (d3 r c 0)); auto.
  - discriminate.
  - fit.
  - intros i j Hi Hj. ev. unfold el. ring.
Qed.
(** G["ij"] = -M["ij"] + W["ik"] * S["kj"] *)
Lemma assign_grad C M A B r k c :
  lens C = [r; c] -> lens M = [r; c] -> lens A = [r; k] -> lens B = [k; c] ->
  assign false C sij [mkTerm (- n1) [(M, sij)]; mkTerm n1 [(A, sik); (B, skj)]]
  = Ok (mk r c (fun i j => bigsum (seq 0 k) (fun x => el A i x * el B x j) - el M i j)).
Proof.
  intros HC HM HA HB. apply (assign_mat (d3 r c k)); auto.
  - discriminate.
  - fit.
  - intros i j Hi Hj. ev.
    rewrite (bigsum_ext (seq 0 k) _ (fun x => el A i x * el B x j)); [unfold el; ring|].
    intros x _. unfold el. ring.
Qed.
(** T["ij"] = A["ji"] *)
Lemma assign_trans C A r c : lens C = [r; c] -> lens A = [c; r] ->
  assign false C sij [prodt [(A, sji)]] = Ok (mk r c (fun i j => el A j i)).
Proof.
  intros HC HA. apply (assign_mat (d3 r c 0)); auto.
  - discriminate.
  - fit.
  - intros i j Hi Hj. ev. unfold el. ring.
Qed.
(** R["ij"] = VT["ki"] * s["k"] * U["jk"] *)
Lemma assign_usv C VT s U r c k : lens C = [r; c] -> lens VT = [k; r] -> lens s = [k] -> lens U = [c; k] ->
  assign false C sij [prodt [(VT, ski); (s, [ch_k]); (U, sjk)]]
  = Ok (mk r c (fun i j => bigsum (seq 0 k) (fun x => el VT x i * at_ s [x] * el U j x))).
Proof.
  intros HC H1 H2 H3. apply (assign_mat (d3 r c k)); auto.
  - discriminate.
  - fit.
  - intros i j Hi Hj. ev. rewrite (Rmul_1_l RL). apply bigsum_ext. intros x _. unfold el. ring.
Qed.
End P.
