(** Model of further helpers of common.cxx: Gauss_Seidel, apply_rankR_update *)
From Coq Require Import List ZArith QArith Bool Arith Lia.
From Verif Require Import Base Num Tensor MCommon.
Import ListNotations.
Local Close Scope Q_scope.

Section M.
Context {N : num} (LA : lapack N).
Local Open Scope num_scope.

(** common.cxx:844-847.  A symmetric-hollow matrix assigned from a general one: the library sums over the permutations
    of the symmetric indices, and the diagonal is zero; the matrix stores the entries with i < j.
    The 0.5 * on the next line acts on the stored entries. *)
Definition sh_assign (G : tensor N) : res (tensor N) :=
  if Nat.eqb (nrow G) (ncol G) then
    Ok (tabulate [nrow G; ncol G] (fun x => let i := nth 0 x 0%nat in let j := nth 1 x 0%nat in
          if (i <? j)%nat then nlit (1 # 2) * (at_ G [i; j] + at_ G [j; i]) else n0))
  else Err CtfError.
(** common.cxx:840-868 Gauss_Seidel: returns the new A.  848-850: the stored entries of the hollow matrix become a general
    matrix G_U (strictly upper triangular); lines 851-860: the inverse of G_L = Gamma - G_U through its SVD. *)
Definition Gauss_Seidel (A F Gamma : tensor N) (maxits : nat) : res (tensor N) :=
  G_U <- sh_assign Gamma ;;
  G_L <- assign false Gamma sij [mkTerm n1 [(Gamma, sij)]; mkTerm (- n1) [(G_U, sij)]] ;;
  let '(U, p, VT) := svd LA G_L (ncol G_L) in
  let p := inv_all p in
  GLr <- assign false G_L sij [prodt [(VT, ski); (p, [ch_k]); (U, sjk)]] ;;
  for_ 0 maxits (fun _ A =>
      M <- assign false (zeros [nrow F; ncol F]) sij [mkTerm n1 [(F, sij)]; mkTerm (- n1) [(A, sik); (Gamma, skj)]] ;;
      assign false A sij [mkTerm n1 [(A, sij)]; prodt [(M, sik); (GLr, sjk)]]) A.

(** common.cxx:815-838 apply_rankR_update: returns the new U, cached tensor and A *)
Definition apply_rankR_update (U sigma VT A V cached : tensor N) (mode : nat) : res (tensor N * tensor N * tensor N) :=
  let o := order V in
  sq <- bset (newbuf (o + 1)) o 0%Z ;;
  sq2 <- bset (newbuf (o + 1)) o 0%Z ;;
  '(sq, sq2) <- for_ 0 o (fun i st => let '(a, b) := st in a <- bset a i (chr i) ;; b <- bset b i (chr i) ;; Ok (a, b)) (sq, sq2) ;;
  sq2 <- bset sq2 mode (chr o) ;;
  c1 <- bget sq2 mode ;;
  c2 <- bget sq mode ;;
  U <- assign false U sij [prodt [(U, sij); (sigma, [ch_j])]] ;;
  s <- take o sq ;;
  s2 <- take (order cached) sq2 ;;
  c <- assign false cached s2 [mkTerm n1 [(cached, s2)]; prodt [(VT, [chr (o + 1); c1]); (U, [c2; chr (o + 1)]); (V, s)]] ;;
  A <- assign false A sij [prodt [(U, sik); (VT, skj)]] ;;
  Ok (U, c, A).
End M.
