(** Cases for C02, C17 and C41. *)
From Coq Require Import List ZArith Lia Bool Arith Permutation.
From Verif Require Import Base Num Tensor Spec MCommon MCP PBase PTensor PSum PMttkrp PMat PropMttkrp PropBasic.
Import ListNotations.

(** C02: order 11, mode length 2, rank 1 *)
Definition c2V : tensor Znum := zeros (repeat 2 11).
Definition c2W : list (tensor Znum) := repeat (zeros [2; 1]) 11.
Theorem C02_case :
  11 <= order c2V /\ lens c2V = repeat 2 (order c2V) /\ factors_ok c2V c2W 1 /\ 2 <> 1 /\
  KhatriRao_contract (zeros [2; 1]) c2V c2W (map Some (seq 0 11)) (map Some (repeat 2 10 ++ [1])) = Err CtfError.
Proof.
  assert (H : factors_ok c2V c2W 1).
  { split; [apply zeros_wf|]. split; [reflexivity|]. intros m Hm. change (order c2V) with 11 in Hm. unfold fac, c2W.
    do 11 (destruct m as [|m]; [split; [reflexivity|apply zeros_wf]|]). lia. }
  split; [vm_compute; lia|]. split; [reflexivity|]. split; [exact H|]. split; [discriminate|].
  apply (C02_direct_mttkrp_order11_fails Znum c2V (zeros [2; 1]) c2W 1 2 (seq 0 11)); auto; vm_compute; lia.
Qed.
Print Assumptions C02_case.

(** C17: M = (5, 7), S = 1, start (1, 1), damping 2: the solution (5, 7) is replaced by 1 + 2 (x - 1) = (9, 13) *)
Definition c17LA : lapack Znum :=
  @mkLapack Znum (fun S k => (mid k, tabulate [k] (fun x => el S (nth 0 x 0) (nth 0 x 0)), mid k)) (fun A => A) (fun B _ _ _ _ => B) (fun A => A) (fun _ ls => zeros ls).
Definition c17 (ls : list nat) (l : list Z) : tensor Znum := @mkT Znum ls l.
Theorem C17_case :
  let M := c17 [2; 1] [5; 7]%Z in let S := c17 [1; 1] [1]%Z in let W := c17 [2; 1] [3; 3]%Z in let W0 := c17 [2; 1] [1; 1]%Z in let dW := c17 [2; 1] [0; 0]%Z in
  SVD_solve c17LA M W S = Ok M /\ is_mat M 2 1 /\ is_mat W0 2 1 /\
  SVD_solve_mod c17LA M W W0 dW S (2%Z : Znum) = Ok (c17 [2; 1] [9; 13]%Z, c17 [2; 1] [8; 12]%Z) /\
  (* damping 1 gives the solution itself *)
  SVD_solve_mod c17LA M W W0 dW S (1%Z : Znum) = Ok (M, c17 [2; 1] [4; 6]%Z).
Proof.
  cbv zeta. split; [vm_compute; reflexivity|]. split; [split; reflexivity|]. split; [split; reflexivity|]. split; vm_compute; reflexivity.
Qed.
Print Assumptions C17_case.
(** C41 *)
Theorem C41_case :
  swap_char (map Some [97; 98; 99; 100]%Z) 1 3 = Ok (map Some [97; 100; 99; 98]%Z) /\
  swap_char (map Some [97; 100; 99; 98]%Z) 1 3 = Ok (map Some [97; 98; 99; 100]%Z) /\
  swap_char (map Some [97; 98]%Z) 1 1 = Ok (map Some [97; 98]%Z).
Proof. split; [|split]; vm_compute; reflexivity. Qed.
Print Assumptions C41_case.
