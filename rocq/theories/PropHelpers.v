(** C63, C64, C65: Gram_Schmidt, apply_rankR_update, random_laplacian_tensor and unit_tensor. *)
From Coq Require Import List ZArith QArith Lia Bool Arith Permutation Reals Ring Lra.
From Verif Require Import Base Num NumR Tensor Spec Spec3 Spec5 Spec7 Spec17 MCommon MHelpers MGen PBase PTensor PSum PMat PMatAlg PGen PGen2 PHelpers.
Import ListNotations.
Local Close Scope Q_scope.
Local Close Scope R_scope.

(** ** C63: Gram_Schmidt(A, B) subtracts from A its component along B *)
Theorem C63_gram_schmidt : forall (N : num), ring_laws N -> forall (A B : tensor N) (n : nat),
  lens A = [n] -> lens B = [n] ->
  exists A', Gram_Schmidt A B = Ok A' /\ lens A' = [n] /\ wf A' /\
    forall i, i < n -> at_ A' [i] = nadd (at_ A [i]) (nmul (nopp (ndiv (dotp A B) (dotp B B))) (at_ B [i])).
Proof.
  intros N RL A B n HA HB. rewrite (gs_ok RL A B n HA HB). eexists. split; [reflexivity|]. split; [reflexivity|]. split; [apply tabulate_wf|].
  intros i Hi. rewrite at_tabulate by (constructor; [auto|constructor]). reflexivity.
Qed.
(** the result is orthogonal to B as soon as the quotient (A.B)/(B.B) is exact, products with vectors orthogonal to B are
    unchanged, and the norm does not grow *)
Theorem C63_orthogonal : forall (N : num), ring_laws N -> forall (A B A' : tensor N) (n : nat),
  lens A = [n] -> lens B = [n] -> Gram_Schmidt A B = Ok A' ->
  nmul (ndiv (dotp A B) (dotp B B)) (dotp B B) = dotp A B ->
  dotp A' B = n0 /\ (forall C, lens C = [n] -> dotp B C = n0 -> dotp A' C = dotp A C) /\
  (ord_laws N -> nle (dotp A' A') (dotp A A)).
Proof.
  intros N RL A B A' n HA HB E HD. rewrite (gs_ok RL A B n HA HB) in E. injection E as <-.
  destruct (gs_facts RL A B n HA HB _ HD) as (H1 & H2 & H3). split; [exact H1|]. split; [exact H2|].
  intros OL. rewrite H3. apply (le_add_r OL). apply (sq_dot_nonneg RL OL).
Qed.
(** over the reals the quotient is exact whenever B is not zero *)
Theorem C63_real : forall (A B : tensor Rnum) (n : nat), lens A = [n] -> lens B = [n] -> (exists i, i < n /\ at_ B [i] <> 0%R) ->
  exists A', Gram_Schmidt A B = Ok A' /\ dotp A' B = 0%R /\ (dotp A' A' <= dotp A A)%R.
Proof.
  intros A B n HA HB (i & Hi & Hne).
  destruct (C63_gram_schmidt Rnum Rnum_ring A B n HA HB) as (A' & E & _). exists A'. split; [exact E|].
  assert (P : forall l : list nat, (0 <= (bigsum l (fun i => nmul (at_ B [i]) (at_ B [i])) : Rnum))%R /\ (In i l -> (0 < (bigsum l (fun i => nmul (at_ B [i]) (at_ B [i])) : Rnum))%R)).
  { induction l as [|j l (IH1 & IH2)]; [split; [cbn; lra|intros []]|].
    change (bigsum (j :: l) (fun i => nmul (at_ B [i]) (at_ B [i]))) with (at_ B [j] * at_ B [j] + (bigsum l (fun i => nmul (at_ B [i]) (at_ B [i])) : Rnum))%R.
    assert (0 <= at_ B [j] * at_ B [j])%R by (apply Rle_0_sqr).
    split; [lra|]. intros [->|Hin]; [|specialize (IH2 Hin); lra].
    assert (0 < at_ B [i] * at_ B [i])%R by (apply Rsqr_pos_lt; auto). lra. }
  assert (HBB : (dotp B B : R) <> 0%R).
  { unfold dotp. rewrite HB. cbn [nth]. specialize (P (seq 0 n)). destruct P as (_ & P). specialize (P ltac:(apply in_seq; lia)). apply Rgt_not_eq. exact P. }
  destruct (C63_orthogonal Rnum Rnum_ring A B A' n HA HB E) as (H1 & _ & H3).
  { cbn. unfold Rdiv. rewrite Rmult_assoc, Rinv_l, Rmult_1_r; auto. }
  split; [exact H1|]. specialize (H3 Rnum_ord). apply Rnle in H3. exact H3.
Qed.
Theorem C63_case : let A := zt [3] [5; 1; 3]%Z in let B := zt [3] [1; 1; 1]%Z in
  Gram_Schmidt A B = Ok (zt [3] [2; -2; 0]%Z) /\ nmul (ndiv (dotp A B) (dotp B B)) (dotp B B) = dotp A B.
Proof. split; vm_compute; reflexivity. Qed.

(** ** C64: apply_rankR_update(U, sigma, VT, A, V, cached, mode) scales the columns of U, adds V x_mode (U diag(sigma) VT) to the
    cached tensor, and leaves U diag(sigma) VT in A *)
Theorem C64_rankR_update : forall (N : num), ring_laws N ->
  forall (U sigma VT A V cached : tensor N) (mode r k c : nat),
  order V <= 29 -> mode < order V -> wf V -> nth mode (lens V) 0 = r ->
  is_mat U r k -> lens sigma = [k] -> wf sigma -> is_mat VT k c -> is_mat A r c ->
  wf cached -> lens cached = lset (lens V) mode c ->
  exists U' cached' A', apply_rankR_update U sigma VT A V cached mode = Ok (U', cached', A') /\
    (forall i j, i < r -> j < k -> el U' i j = nmul (el U i j) (at_ sigma [j])) /\
    (forall i j, i < r -> j < c -> el A' i j = bigsum (seq 0 k) (fun x => nmul (nmul (el U i x) (at_ sigma [x])) (el VT x j))) /\
    lens cached' = lens cached /\
    (forall y, inb (lens cached) y ->
       at_ cached' y = nadd (at_ cached y) (bigsum (seq 0 r) (fun i => nmul (at_ V (lset y mode i)) (el A' i (nth mode y 0))))).
Proof.
  intros N RL U sigma VT A V cached mode r k c Ho Hm HV Hr HU Ls Ws HVT HA Wc Lc.
  rewrite (rankR_ok RL U sigma VT A V cached mode r k c) by auto. do 3 eexists. split; [reflexivity|].
  assert (HU' : is_mat (mmul U (mdiag k (fun i => at_ sigma [i]))) r k) by (apply (mmul_mat _ _ r k k); auto; apply mdiag_mat).
  assert (EU : forall i j, i < r -> j < k -> el (mmul U (mdiag k (fun i => at_ sigma [i]))) i j = nmul (el U i j) (at_ sigma [j])).
  { intros i j Hi Hj. rewrite (mmul_diag_r RL U r k) by auto. rewrite el_mk by auto. reflexivity. }
  split; [exact EU|]. split.
  { intros i j Hi Hj. unfold usv. rewrite (mmul_mk _ VT r k c) by auto. rewrite el_mk by auto. apply bigsum_ext. intros x Hx. apply in_seq in Hx. rewrite EU by lia. reflexivity. }
  split; [reflexivity|]. intros y Hy. unfold tadd. rewrite at_tabulate by auto. f_equal.
  assert (Nc : ncol (usv k U sigma VT) = c) by (destruct HVT as (LV & _); unfold usv, mmul, ncol; cbn; unfold ncol; rewrite LV; auto).
  rewrite PTtm.ttm_at by (rewrite Nc, <- Lc; auto). rewrite Hr. reflexivity.
Qed.
(** the old A does not matter: the update is not added to A *)
Theorem C64_A_is_overwritten : forall (N : num), ring_laws N ->
  forall (U sigma VT A B V cached : tensor N) (mode r k c : nat),
  order V <= 29 -> mode < order V -> wf V -> nth mode (lens V) 0 = r ->
  is_mat U r k -> lens sigma = [k] -> wf sigma -> is_mat VT k c -> is_mat A r c -> is_mat B r c ->
  wf cached -> lens cached = lset (lens V) mode c ->
  apply_rankR_update U sigma VT A V cached mode = apply_rankR_update U sigma VT B V cached mode.
Proof.
  intros N RL U sigma VT A B V cached mode r k c Ho Hm HV Hr HU Ls Ws HVT HA HB Wc Lc.
  rewrite (rankR_ok RL U sigma VT A V cached mode r k c), (rankR_ok RL U sigma VT B V cached mode r k c) by auto. reflexivity.
Qed.
Theorem C64_case : let V := zt [2; 2] [1; 2; 3; 4]%Z in
  apply_rankR_update (zt [2; 1] [1; 2]%Z) (zt [1] [3]%Z) (zt [1; 3] [1; 0; 2]%Z) (zt [2; 3] [9; 9; 9; 9; 9; 9]%Z) V (zt [2; 3] [1; 1; 1; 1; 1; 1]%Z) 1 =
    Ok (zt [2; 1] [3; 6]%Z, zt [2; 3] [22; 31; 1; 1; 43; 61]%Z, zt [2; 3] [3; 6; 0; 0; 6; 12]%Z).
Proof. vm_compute. reflexivity. Qed.

(** ** C65: random_laplacian_tensor is not random: it adds the sum over the grid directions of the matrix with 2 on the
    diagonal, -1 below and -2 above it *)
Theorem C65_random_laplacian : forall (N : num), ring_laws N -> forall (V : tensor N) (d s : nat),
  2 <= d <= 15 -> 1 <= s -> wf V -> lens V = repeat s (2 * d) ->
  exists B, random_laplacian_tensor V (2 * d) s = Ok B /\ lens B = repeat s (2 * d) /\ wf B /\
    forall x, inb (repeat s (2 * d)) x -> at_ B x = nadd (at_ V x) (grid_sum skew_diff d x).
Proof.
  intros N RL V d s Hd Hs HV HL. rewrite (random_laplacian_ok RL) by (auto; lia). eexists. split; [reflexivity|].
  split; [reflexivity|]. split; [apply tabulate_wf|]. intros x Hx. rewrite at_tabulate by auto. reflexivity.
Qed.
(** unit_tensor writes ones at the entries (i, j, k) with j = i + k modulo s and leaves the others *)
Theorem C65_unit_tensor : forall (N : num) (V : tensor N) (s : nat), ring_laws N -> lens V = [s; s; s] -> wf V ->
  exists V', unit_tensor V s = Ok V' /\ lens V' = [s; s; s] /\ wf V' /\
    forall i j k, i < s -> j < s -> k < s -> at_ V' [i; j; k] = if Nat.eqb ((i + k) mod s) j then n1 else at_ V [i; j; k].
Proof. intros N V s RL HL HV. apply unit_ok; auto. Qed.
(** a tensor with fewer entries than s^3 is reported by CTF *)
Theorem C65_unit_tensor_too_small : forall (N : num) (V : tensor N) (s : nat), 1 <= s -> wf V -> size (lens V) <= s * s * (s - 1) ->
  unit_tensor V s = Err CtfError.
Proof.
  intros N V s Hs HV HL. unfold unit_tensor. apply write_bad. unfold wf in HV. rewrite HV.
  exists ((s - 1) * s * s + (s - 1) * s + (s - 1 + (s - 1) * (s - 1)) mod s). split; [|nia].
  apply in_map_iff. eexists (_, n1). split; [reflexivity|]. apply in_flat_map. exists (s - 1). split; [apply in_seq; lia|].
  apply in_map_iff. exists (s - 1). split; [reflexivity|apply in_seq; lia].
Qed.
Theorem C65_case :
  random_laplacian_tensor (zeros [2; 2; 2; 2]) 4 2 = Ok (zt [2; 2; 2; 2] [4; -1; -2; 4; -1; 0; 0; -1; -2; 0; 0; -2; 4; -1; -2; 4]%Z) /\
  unit_tensor (zeros [2; 2; 2]) 2 = Ok (zt [2; 2; 2] [1; 0; 0; 1; 0; 1; 1; 0]%Z).
Proof. split; vm_compute; reflexivity. Qed.
Print Assumptions C63_gram_schmidt.
Print Assumptions C63_orthogonal.
Print Assumptions C63_real.
Print Assumptions C63_case.
Print Assumptions C64_rankR_update.
Print Assumptions C64_A_is_overwritten.
Print Assumptions C64_case.
Print Assumptions C65_random_laplacian.
Print Assumptions C65_unit_tensor.
Print Assumptions C65_unit_tensor_too_small.
Print Assumptions C65_case.
