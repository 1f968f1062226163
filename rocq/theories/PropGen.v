(** C34, C35, C40: generated and reshaped tensors. *)
From Coq Require Import List ZArith QArith Lia Bool Arith Permutation.
From Verif Require Import Base Num Tensor Spec Spec5 MCommon MGen PBase PTensor PGen PGen2.
Import ListNotations.
Local Close Scope Q_scope.

(** ** C34: laplacian_tensor adds the discrete Laplacian in d = N/2 directions to V *)
Theorem C34_laplacian : forall (N : num), ring_laws N -> forall (V : tensor N) (d s : nat),
  2 <= d <= 15 -> 1 <= s -> wf V -> lens V = repeat s (2 * d) ->
  exists B, laplacian_tensor V (2 * d) s = Ok B /\ lens B = repeat s (2 * d) /\ wf B /\
    forall x, inb (repeat s (2 * d)) x -> at_ B x = nadd (at_ V x) (laplace_at d x).
Proof.
  intros N RL V d s Hd Hs HV HL. rewrite (laplacian_ok RL) by (auto; lia). eexists. split; [reflexivity|].
  split; [reflexivity|]. split; [apply tabulate_wf|]. intros x Hx. rewrite at_tabulate by auto. reflexivity.
Qed.
(** the callers pass a tensor of zeros: the result is the Laplacian *)
Theorem C34_laplacian_of_zeros : forall (N : num), ring_laws N -> forall d s : nat,
  2 <= d <= 15 -> 1 <= s -> laplacian_tensor (zeros (repeat s (2 * d))) (2 * d) s = Ok (laplace d s : tensor N).
Proof.
  intros N RL d s Hd Hs. rewrite (laplacian_ok RL) by (auto using zeros_wf; lia). f_equal. apply tabulate_ext. intros x Hx.
  unfold zeros. rewrite at_tabulate by auto. apply (Radd_0_l RL).
Qed.
(** in one direction (N = 2) the index string of the second factor is too short: undefined *)
Theorem C34_one_direction_is_undefined : forall (N : num), ring_laws N -> forall (V : tensor N) (s : nat), 1 <= s -> order V = 2 ->
  laplacian_tensor V 2 s = Err UB.
Proof.
  intros N RL V s Hs HV. unfold laplacian_tensor. cbn [Nat.ltb Nat.leb]. rewrite (lap_D_ok RL s Hs). cbn [bind]. unfold lap_sum.
  replace (identity_tensor (2 - 2) s) with (Ok (mid s : tensor N)).
  2:{ unfold identity_tensor. rewrite (ident_ok RL). reflexivity. }
  unfold add_b. rewrite HV. reflexivity.
Qed.
Theorem C34_case : laplacian_tensor (zeros [2; 2; 2; 2]) 4 2 = Ok (laplace 2 2 : tensor Znum) /\
  data (laplace 2 2 : tensor Znum) = [4; -1; -1; 4; -1; 0; 0; -1; -1; 0; 0; -1; 4; -1; -1; 4]%Z.
Proof. split; vm_compute; reflexivity. Qed.

(** ** C35: fold_unfold.  ps: what the processes read of X, for any distribution of X over them *)
Theorem C35_fold_unfold : forall (N : num) (X Y : tensor N) (ps : list (nat * N)),
  wf X -> wf Y -> size (lens X) = size (lens Y) -> Permutation ps (all_pairs X) ->
  exists Y', fold_unfold ps Y = Ok Y' /\ lens Y' = lens Y /\ data Y' = data X /\
    forall x y, inb (lens X) x -> inb (lens Y) y -> lin (lens X) x = lin (lens Y) y -> at_ Y' y = at_ X x.
Proof.
  intros N X Y ps HX HY Hs Hp. rewrite (fold_ok X Y ps) by auto. eexists. split; [reflexivity|]. cbn [lens data].
  split; [auto|]. split; [auto|]. intros x y Hx Hy E. unfold at_. cbn [lens data]. rewrite E. auto.
Qed.
Theorem C35_back_and_forth : forall (N : num) (X Y : tensor N) (ps qs : list (nat * N)) (Y' : tensor N),
  wf X -> wf Y -> size (lens X) = size (lens Y) -> Permutation ps (all_pairs X) ->
  fold_unfold ps Y = Ok Y' -> Permutation qs (all_pairs Y') -> fold_unfold qs X = Ok X.
Proof.
  intros N X Y ps qs Y' HX HY Hs Hp E Hq. rewrite (fold_ok X Y ps) in E by auto. injection E as <-.
  rewrite (fold_ok (mkT (lens Y) (data X)) X qs); auto.
  - cbn [data]. destruct X. reflexivity.
  - unfold wf in *. cbn [lens data]. lia.
Qed.
(** a target that is too small is reported by CTF, whatever the order of the writes *)
Theorem C35_too_small : forall (N : num) (X Y : tensor N) (ps : list (nat * N)),
  wf X -> wf Y -> size (lens Y) < size (lens X) -> Permutation ps (all_pairs X) -> fold_unfold ps Y = Err CtfError.
Proof.
  intros N X Y ps HX HY Hs Hp. apply write_bad. unfold wf in *. exists (size (lens Y)). split; [|lia].
  apply (Permutation_in _ (Permutation_map fst (Permutation_sym Hp))). rewrite all_pairs_fst. apply in_seq. lia.
Qed.
Theorem C35_case : let X := zt [2; 3] [1; 2; 3; 4; 5; 6]%Z in
  fold_unfold (rev (all_pairs X)) (zeros [3; 2]) = Ok (zt [3; 2] [1; 2; 3; 4; 5; 6]%Z) /\ Permutation (rev (all_pairs X)) (all_pairs X).
Proof. split; [vm_compute; reflexivity|symmetry; apply Permutation_rev]. Qed.

(** ** C40: Gen_collinearity.  rnd k n: the k-th vector drawn, of length n; fuel: how many draws each
    vector may take (LoopFuel: more are needed) *)
Theorem C40_collinearity : forall (N : num), ring_laws N ->
  forall (rnd : nat -> nat -> tensor N) (fuel : nat) (ls : list nat) (R : nat) (col_min col_max : N) (X : tensor N),
  (forall k n, lens (rnd k n) = [n] /\ wf (rnd k n)) -> 2 <= length ls <= 19 ->
  Gen_collinearity rnd fuel ls (length ls) R col_min col_max = Ok X ->
  (* vec i j: the vector of component i and mode j *)
  exists vec : nat -> nat -> tensor N,
    (forall i j, i < R -> j < length ls -> lens (vec i j) = [nth j ls 0%nat]) /\
    (forall i k j, i < R -> k < i -> j < length ls ->
       nle col_min (collin (vec i j) (vec k j)) /\ nle (collin (vec i j) (vec k j)) col_max) /\
    lens X = ls /\
    forall x, inb ls x -> at_ X x = bigsum (seq 0 R) (fun i =>
      nmul (weight R i) (bigprod (seq 0 (length ls)) (fun j => at_ (vec i j) [nth j x 0%nat]))).
Proof.
  intros N RL rnd fuel ls R lo hi X Hr Hd E.
  destruct (Gen_ok RL rnd ls (length ls) R lo hi Hr eq_refl fuel Hd) as [(vec & Hv & Hp & E')|E']; [|congruence].
  rewrite E' in E. injection E as <-. exists (vget vec). destruct Hv as (HL & Hs).
  split; [intros i j Hi Hj; destruct (Hs i Hi) as (_ & S); apply (S j Hj)|].
  split. { intros i k j Hi Hk Hj. specialize (Hp j i k Hj (conj Hk Hi)). unfold in_range in Hp. apply orb_false_iff in Hp. exact Hp. }
  split; [reflexivity|]. intros x Hx. rewrite at_tabulate by auto. unfold spread. apply bigsum_ext. intros i Hi. apply in_seq in Hi.
  destruct (Hs i ltac:(lia)) as (Li & _). unfold outer_at. rewrite Li. reflexivity.
Qed.
(** the only other outcome is to go on drawing *)
Theorem C40_no_other_error : forall (N : num), ring_laws N ->
  forall (rnd : nat -> nat -> tensor N) (fuel : nat) (ls : list nat) (R : nat) (col_min col_max : N) (e : error),
  (forall k n, lens (rnd k n) = [n] /\ wf (rnd k n)) -> 2 <= length ls <= 19 ->
  Gen_collinearity rnd fuel ls (length ls) R col_min col_max = Err e -> e = LoopFuel.
Proof.
  intros N RL rnd fuel ls R lo hi e Hr Hd E.
  destruct (Gen_ok RL rnd ls (length ls) R lo hi Hr eq_refl fuel Hd) as [(vec & Hv & Hp & E')|E']; congruence.
Qed.
(** an empty range: it never returns *)
Theorem C40_empty_range_never_returns : forall (N : num), ring_laws N -> ord_laws N ->
  forall (rnd : nat -> nat -> tensor N) (fuel : nat) (ls : list nat) (R : nat) (col_min col_max : N),
  (forall k n, lens (rnd k n) = [n] /\ wf (rnd k n)) -> 2 <= length ls <= 19 -> 2 <= R -> nltb col_max col_min = true ->
  Gen_collinearity rnd fuel ls (length ls) R col_min col_max = Err LoopFuel.
Proof.
  intros N RL OL rnd fuel ls R lo hi Hr Hd HR Hlt.
  destruct (Gen_ok RL rnd ls (length ls) R lo hi Hr eq_refl fuel Hd) as [(vec & Hv & Hp & E')|E']; auto.
  exfalso. specialize (Hp 0%nat 1%nat 0%nat ltac:(lia) ltac:(lia)). unfold in_range in Hp. apply orb_false_iff in Hp as (H1 & H2).
  pose proof (le_trans OL lo _ hi H1 H2) as H. unfold nle in H. congruence.
Qed.
(** a run that draws once more and returns *)
Definition c40_rnd (k n : nat) : tensor Znum := zt [n] (if Nat.eqb k 3 then repeat 3%Z n else repeat 1%Z n).
Theorem C40_case : (forall k n, lens (c40_rnd k n) = [n] /\ wf (c40_rnd k n)) /\
  exists X, Gen_collinearity c40_rnd 2 [1; 1] 2 2 (0%Z : Znum) 2%Z = Ok X.
Proof.
  split; [intros k n; split; [reflexivity|]; unfold wf, c40_rnd, zt; cbn [data lens size]; destruct (Nat.eqb k 3); cbn [size fold_right]; rewrite ?repeat_length; cbn; lia|].
  eexists. vm_compute. reflexivity.
Qed.
Print Assumptions C34_laplacian.
Print Assumptions C34_laplacian_of_zeros.
Print Assumptions C34_one_direction_is_undefined.
Print Assumptions C34_case.
Print Assumptions C35_fold_unfold.
Print Assumptions C35_back_and_forth.
Print Assumptions C35_too_small.
Print Assumptions C35_case.
Print Assumptions C40_collinearity.
Print Assumptions C40_no_other_error.
Print Assumptions C40_empty_range_never_returns.
Print Assumptions C40_case.
