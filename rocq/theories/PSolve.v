(** The normal-equation solvers *)
From Coq Require Import List ZArith Lia Bool Arith Permutation Ring.
From Verif Require Import Base Num Tensor Spec MCommon PBase PTensor PSum PMttkrp PMat PMatAlg.
Import ListNotations.

Section P.
Context {N : num} (RL : ring_laws N).
Let RT : ring_theory (@n0 N) n1 nadd nmul nsub nopp (@eq N) := RL.
Add Ring Nring : RT.
Local Open Scope num_scope.
Implicit Types A B C M W : tensor N.
Context (LA : lapack N).

Lemma at1_inv (s : tensor N) k x : lens s = [k] -> wf s -> x < k ->
  at_ (inv_all s) [x] = n1 / at_ s [x].
Proof.
  intros Hl Hw Hx. unfold at_, inv_all. cbn [lens data]. rewrite Hl. cbn [lin].
  unfold wf in Hw. rewrite Hl in Hw. cbn in Hw.
  rewrite (nth_map_lt _ _ _ n0); auto. lia.
Qed.

(** the pseudo-inverse built by SVD_solve *)
Lemma svd_inverse_ok (S U s VT : tensor N) k : is_svd S U s VT k ->
  (forall i, i < k -> at_ s [i] * (n1 / at_ s [i]) = n1) ->
  let Sr := mk k k (fun i j => bigsum (seq 0 k) (fun x => el VT x i * at_ (inv_all s) [x] * el U j x)) in
  mmul Sr S = mid k.
Proof.
  intros (HU & Hs & Hws & HV & HS & U1 & U2 & V1 & V2) Hinv Sr.
  assert (ESr : Sr = mmul (mmul (mtrans VT) (mdiag k (fun i => n1 / at_ s [i]))) (mtrans U)).
  { pose proof (mtrans_mat VT k k HV) as HVt. pose proof (mtrans_mat U k k HU) as HUt.
    unfold Sr. symmetry. rewrite (mmul_diag_r RL _ k k) by auto.
    rewrite (mmul_mk _ _ k k k) by (auto; apply mk_mat). apply mk_ext. intros i j Hi Hj.
    apply bigsum_ext. intros x Hx. apply in_seq in Hx. rewrite el_mk by lia.
    rewrite (el_mtrans VT k k) by (auto; lia). rewrite (el_mtrans U k k) by (auto; lia).
    rewrite (at1_inv s k) by (auto; lia). auto. }
  assert (HVt := mtrans_mat VT k k HV). assert (HUt := mtrans_mat U k k HU).
  assert (HD : forall f, is_mat (mdiag k f : tensor N) k k) by (intros; apply mdiag_mat).
  rewrite ESr, HS.
  set (Di := mdiag k (fun i => n1 / at_ s [i])). set (D := mdiag k (fun i => at_ s [i])).
  assert (HDi : is_mat Di k k) by apply HD. assert (HDD : is_mat D k k) by apply HD.
  assert (HVD := mmul_mat _ _ k k k HVt HDi). assert (HUD := mmul_mat _ _ k k k HU HDD).
  rewrite (mmul_assoc RL _ (mtrans U) _ k k k k) by (auto; eapply mmul_mat; eauto).
  rewrite <- (mmul_assoc RL (mtrans U) _ VT k k k k) by auto.
  rewrite <- (mmul_assoc RL (mtrans U) U D k k k k) by auto.
  rewrite U1, (mmul_id_l RL D k k) by auto.
  rewrite (mmul_assoc RL _ Di _ k k k k) by (auto; eapply mmul_mat; eauto).
  rewrite <- (mmul_assoc RL Di D VT k k k k) by auto.
  unfold Di, D. rewrite (mdiag_mul RL).
  assert (E : mdiag k (fun i => n1 / at_ s [i] * at_ s [i]) = (mid k : tensor N)).
  { unfold mid. apply (mat_ext _ _ k k); try apply mdiag_mat. intros i j Hi Hj.
    rewrite !el_mdiag by auto. destruct (Nat.eqb i j); auto. rewrite (Rmul_comm RL). auto. }
  rewrite E, (mmul_id_l RL VT k k) by auto. auto.
Qed.

Theorem SVD_solve_ok M W (S : tensor N) r k :
  is_mat M r k -> lens W = [r; k] -> is_mat S k k ->
  (let '(U, s, VT) := svd LA S k in is_svd S U s VT k /\
    forall i, i < k -> at_ s [i] * (n1 / at_ s [i]) = n1) ->
  exists W', SVD_solve LA M W S = Ok W' /\ is_mat W' r k /\ mmul W' S = M.
Proof.
  intros HM HW HS. unfold SVD_solve. rewrite (is_mat_ncol _ _ _ HS).
  destruct (svd LA S k) as [[U s] VT] eqn:E. intros [Hsvd Hinv].
  pose proof (svd_inverse_ok S U s VT k Hsvd Hinv) as HSr. cbv zeta in HSr.
  destruct Hsvd as (HU & Hs & Hws & HV & _).
  rewrite (assign_usv RL S VT (inv_all s) U k k k); [|apply HS|apply HV|exact Hs|apply HU]. cbn [bind].
  set (Sr := mk k k _) in *.
  assert (HSrm : is_mat Sr k k) by apply mk_mat.
  rewrite (assign_mm RL W M Sr r k k); [|auto|apply HM|reflexivity].
  eexists; split; [reflexivity|]. split; [apply mk_mat|].
  rewrite <- (mmul_mk M Sr r k k) by auto.
  rewrite (mmul_assoc RL M Sr S r k k k) by auto. rewrite HSr. apply (mmul_id_r RL M r k); auto.
Qed.

Theorem cholesky_solve_ok M (S : tensor N) r k :
  is_mat M r k -> is_mat S k k ->
  is_cholesky S (cholesky LA S) k ->
  (forall B, is_mat B r k -> let X := solve_tri LA B (cholesky LA S) true false true in
      is_mat X r k /\ mmul X (mtrans (cholesky LA S)) = B) ->
  (forall B, is_mat B r k -> let X := solve_tri LA B (cholesky LA S) true false false in
      is_mat X r k /\ mmul X (cholesky LA S) = B) ->
  exists W', cholesky_solve LA M S = Ok W' /\ is_mat W' r k /\ mmul W' S = M.
Proof.
  intros HM HS [HL HSL] H1 H2. unfold cholesky_solve. set (L := cholesky LA S) in *.
  assert (exists T0, assign false L sik [prodt [(L, sij); (L, skj)]] = Ok T0) as [T0 ->].
  { destruct (assign_rep (fun _ => k) false L sik [prodt [(L, sij); (L, skj)]]) as (B & E & _).
    - repeat constructor; simpl; unfold ch_i, ch_k; intuition discriminate.
    - destruct HL as [E _]. rewrite E. reflexivity.
    - destruct HL as [E _]. intros t [<-|[]] p [<-|[<-|[]]]; simpl; auto.
    - eauto. }
  cbn [bind]. destruct (H1 M HM) as [HT ET]. destruct (H2 _ HT) as [HX EX]. cbv zeta in *.
  eexists; split; [reflexivity|]. split; [auto|].
  rewrite HSL. rewrite <- (mmul_assoc RL _ L (mtrans L) r k k k) by (auto; apply mtrans_mat; auto).
  rewrite EX. auto.
Qed.

Theorem SVD_solve_mod_ok M W (W_init dW S : tensor N) r k ratio Ws :
  lens W = [r; k] -> is_mat W_init r k -> lens dW = [r; k] ->
  SVD_solve LA M W S = Ok Ws -> is_mat Ws r k ->
  (neqb ratio n1 = true -> ratio = n1) ->
  SVD_solve_mod LA M W W_init dW S ratio =
    Ok (madd W_init (mscal ratio (msub Ws W_init)), mscal ratio (msub Ws W_init)).
Proof.
  intros HW HWi HdW E HWs Heq. unfold SVD_solve_mod. rewrite E. cbn [bind].
  rewrite (assign_lin RL dW Ws W_init _ _ r k); [|auto|apply HWs|apply HWi]. cbn [bind].
  assert (HD : mk r k (fun i j => ratio * el Ws i j + - ratio * el W_init i j) = mscal ratio (msub Ws W_init)).
  { symmetry. apply mat_mk; [apply mscal_mat, msub_mat'; auto|]. intros i j Hi Hj.
    rewrite (el_mscal _ _ r k) by (auto; apply msub_mat'; auto). rewrite (el_msub _ _ r k) by auto. ring. }
  rewrite HD. set (D := mscal ratio (msub Ws W_init)) in *.
  assert (HDm : is_mat D r k) by (rewrite <- HD; apply mk_mat).
  destruct (neqb ratio n1) eqn:En; cbn [negb].
  - do 2 f_equal. apply (mat_ext _ _ r k); auto; [apply madd_mat; auto|]. intros i j Hi Hj.
    rewrite (el_madd _ _ r k) by auto. unfold D. rewrite (el_mscal _ _ r k) by (auto; apply msub_mat'; auto).
    rewrite (el_msub _ _ r k) by auto. rewrite Heq by auto. ring.
  - rewrite (assign_lin RL Ws W_init D _ _ r k); [|apply HWs|apply HWi|apply HDm]. cbn [bind]. do 2 f_equal.
    symmetry. apply mat_mk; [apply madd_mat; auto|]. intros i j Hi Hj.
    rewrite (el_madd _ _ r k) by auto. ring.
Qed.
End P.

(** non-vacuity: concrete oracles over Z *)
Definition exS1 : tensor Znum := zt [2; 2] [0%Z; 1%Z; 1%Z; 0%Z].
Definition exOnes : tensor Znum := zt [2] [1%Z; 1%Z].
Definition exI2 : tensor Znum := zt [2; 2] [1%Z; 0%Z; 0%Z; 1%Z].
Definition exL : tensor Znum := zt [2; 2] [1%Z; 3%Z; 0%Z; 1%Z].
(** B X = ... for L = [[1,0],[3,1]]: X L^T = B and X L = B *)
Definition ex_tri (B L : tensor Znum) (lower left transp : bool) : tensor Znum :=
  let b0 := nth 0 (data B) 0%Z in let b1 := nth 1 (data B) 0%Z in
  if transp then zt [1; 2] [b0; (b1 - 3 * b0)%Z] else zt [1; 2] [(b0 - 3 * b1)%Z; b1].
Definition exLA : lapack Znum :=
  mkLapack (fun _ _ => (exI2, exOnes, exS1)) (fun _ => exL) ex_tri (fun A => A) (fun _ ls => zeros ls).
Lemma svd_example : exists LA : lapack Znum, let S := zt [2;2]%nat [0%Z; 1%Z; 1%Z; 0%Z] in
  let '(U, s, VT) := svd LA S 2 in is_svd S U s VT 2 /\
     forall i, (i < 2)%nat -> nmul (at_ s [i]) (ndiv n1 (at_ s [i])) = n1.
Proof.
  exists exLA. cbn [svd exLA]. split.
  - repeat split.
  - intros i Hi. destruct i as [|[|i]]; [reflexivity|reflexivity|lia].
Qed.
Lemma chol_example : exists LA : lapack Znum, let S := zt [2;2]%nat [1%Z; 3%Z; 3%Z; 10%Z] in
  is_cholesky S (cholesky LA S) 2 /\
  (forall B, is_mat B 1 2 -> let X := solve_tri LA B (cholesky LA S) true false true in
      is_mat X 1 2 /\ mmul X (mtrans (cholesky LA S)) = B) /\
  (forall B, is_mat B 1 2 -> let X := solve_tri LA B (cholesky LA S) true false false in
      is_mat X 1 2 /\ mmul X (cholesky LA S) = B).
Proof.
  exists exLA. cbn [cholesky solve_tri exLA]. split; [repeat split|].
  assert (HB : forall B : tensor Znum, is_mat B 1 2 -> exists a b, B = zt [1; 2] [a; b]).
  { intros [l dt] [E Ew]. unfold wf in Ew. cbn in *. subst l. cbn in Ew.
    destruct dt as [|a [|b [|]]]; try discriminate. eauto. }
  split; intros B H; destruct (HB B H) as (a & b & ->); (split; [split; reflexivity|]); 
    unfold mmul, tabulate, zt; cbn -[Z.mul Z.add Z.sub];
    apply (f_equal (@mkT Znum [1; 2])); repeat f_equal; cbn -[Z.mul Z.add Z.sub]; ring.
Qed.
