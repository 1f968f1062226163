(** Property theorems: direct MTTKRP and gradient (C01, C02, C03, C41, C49) *)
From Coq Require Import List ZArith Lia Bool Arith Permutation.
From Verif Require Import Base Num Tensor Spec MCommon PBase PKhatri PKhatriBad PGrad.
Import ListNotations.

(** a concrete order-3 tensor with three 2x3 factors *)
Definition exV : tensor Znum := tabulate [2; 2; 2] (fun x => Z.of_nat (1 + lin [2; 2; 2] x * lin [2;2;2] x) : Znum).
Definition exW : list (tensor Znum) :=
  map (fun m => tabulate [2; 3] (fun x => Z.of_nat (m + 2 * nth 0 x 0 + 3 * nth 1 x 0) : Znum)) (seq 0 3).
Theorem ex_factors_ok : factors_ok exV exW 3 /\ lens exV = repeat 2 (order exV) /\ 2 <= order exV <= 10.
Proof.
  repeat split; try reflexivity; try (vm_compute; lia).
  - cbn in H. do 3 (destruct m as [|m]; [reflexivity|]). lia.
  - cbn in H. do 3 (destruct m as [|m]; [reflexivity|]). lia.
Qed.

(** C01 *)
Theorem C01_direct_mttkrp_exact :
  forall (N : num), ring_laws N ->
  forall (V M : tensor N) (W : list (tensor N)) (R s n : nat) (idx : list nat),
  2 <= order V <= 10 -> lens V = repeat s (order V) -> factors_ok V W R ->
  Permutation idx (seq 0 (order V)) -> nth (order V - 1) idx 0 = n -> lens M = [s; R] ->
  KhatriRao_contract M V W (map Some idx) (map Some (repeat s (order V - 1) ++ [R])) = Ok (mttkrp V W n R).
Proof. intros N RL V M W R s n idx H1 H2 H3 H4 H5 H6. exact (KhatriRao_contract_ok RL V W R s idx H1 H2 H3 H4 M n H5 H6). Qed.
Print Assumptions C01_direct_mttkrp_exact.
Theorem C01_case :
  match KhatriRao_contract (zeros [2; 3]) exV exW (map Some [0; 2; 1]) (map Some [2; 2; 3]) with
  | Ok M => data M = data (mttkrp exV exW 1 3) /\ nth 0 (data M) 0%Z <> 0%Z | Err _ => False end.
Proof. vm_compute. split; [reflexivity|discriminate]. Qed.

(** C02: for every order from 11 on the call is rejected when the mode length differs from the rank... *)
Theorem C02_direct_mttkrp_order11_fails :
  forall (N : num) (V M : tensor N) (W : list (tensor N)) (R s : nat) (idx : list nat),
  11 <= order V -> lens V = repeat s (order V) -> factors_ok V W R -> s <> R ->
  Permutation idx (seq 0 (order V)) ->
  KhatriRao_contract M V W (map Some idx) (map Some (repeat s (order V - 1) ++ [R])) = Err CtfError.
Proof. intros N V M W R s idx H1 H2 H3 H4 H5. exact (KhatriRao_contract_order11 M V W R s idx H1 H2 H3 H4 H5). Qed.
Print Assumptions C02_direct_mttkrp_order11_fails.
(** ... and silently wrong when they are equal *)
Theorem C02_direct_mttkrp_order11_refuted :
  exists (V : tensor Znum) (W : list (tensor Znum)) (M : tensor Znum),
  order V = 11 /\ lens V = repeat 2 11 /\ length W = 11 /\ (forall m, m < 11 -> is_mat (fac W m) 2 2) /\ wf V /\
  KhatriRao_contract (zeros [2; 2]) V W (map Some (seq 0 11)) (map Some (repeat 2 10 ++ [2])) = Ok M /\
  M <> mttkrp V W 10 2.
Proof. exact order11_wrong. Qed.
Print Assumptions C02_direct_mttkrp_order11_refuted.

(** C03 *)
Theorem C03_gradient_exact :
  forall (N : num), ring_laws N ->
  forall (V : tensor N) (W G : list (tensor N)) (R s : nat),
  2 <= order V <= 10 -> lens V = repeat s (order V) -> factors_ok V W R ->
  length G = order V -> (forall m, m < order V -> lens (fac G m) = [s; R]) ->
  gradient_CP V W G =
    Ok (map (fun n => msub (mmul (fac W n) (hgram W n R)) (mttkrp V W n R)) (seq 0 (order V))).
Proof. intros N RL V W G R s H1 H2 H3 H4 H5. exact (gradient_CP_ok RL V W G R s H1 H2 H3 H4 H5). Qed.
Print Assumptions C03_gradient_exact.
Theorem C03_case : match gradient_CP exV exW (repeat (zeros [2; 3]) 3) with
  | Ok G => length G = 3 /\ nth 0 (data (fac G 2)) 0%Z <> 0%Z | Err _ => False end.
Proof. vm_compute. split; [reflexivity|discriminate]. Qed.

(** C41 *)
Theorem C41_swap_char_involution :
  forall (s : str) (i j : nat), i < length s -> j < length s ->
  exists s', swap_char (map Some s) i j = Ok (map Some s') /\ length s' = length s /\ Permutation s' s /\
    nth i s' 0%Z = nth j s 0%Z /\ nth j s' 0%Z = nth i s 0%Z /\
    (forall k, k <> i -> k <> j -> nth k s' 0%Z = nth k s 0%Z) /\
    swap_char (map Some s') i j = Ok (map Some s).
Proof. exact swap_char_invol. Qed.
Print Assumptions C41_swap_char_involution.

(** C49: unequal mode lengths are rejected *)
Theorem C49_direct_mttkrp_unequal_fails :
  forall (N : num) (V M : tensor N) (W : list (tensor N)) (R m : nat) (idx : list nat),
  1 <= order V -> factors_ok V W R -> Permutation idx (seq 0 (order V)) ->
  S m < order V -> nth (nth m idx 0) (lens V) 0 <> nth (nth (S m) idx 0) (lens V) 0 ->
  KhatriRao_contract M V W (map Some idx)
    (map Some (map (fun k => nth k (lens V) 0) (firstn (order V - 1) idx) ++ [R])) = Err CtfError.
Proof. intros N V M W R m idx H1 H2 H3 H4 H5. exact (KhatriRao_contract_unequal M V W R idx m H1 H2 H3 H4 H5). Qed.
Print Assumptions C49_direct_mttkrp_unequal_fails.
Theorem C49_gradient_unequal_fails :
  forall (N : num) (V : tensor N) (W G : list (tensor N)) (R : nat),
  2 <= order V <= 31 -> factors_ok V W R ->
  (exists a b, a < order V /\ b < order V /\ nth a (lens V) 0 <> nth b (lens V) 0) ->
  gradient_CP V W G = Err CtfError.
Proof. intros N V W G R H1 H2 H3. exact (gradient_CP_unequal V W G R H1 H2 H3). Qed.
Print Assumptions C49_gradient_unequal_fails.
Theorem C49_case : factors_ok (zeros [2; 3] : tensor Znum) [zeros [2; 2]; zeros [3; 2]] 2.
Proof.
  repeat split; try reflexivity;
  cbn in H; do 2 (destruct m as [|m]; [reflexivity|]); lia.
Qed.
