(** get_rankR_update_cholesky, get_rankR_update_svd, randomized_svd *)
From Coq Require Import List ZArith QArith Lia Bool Arith Permutation Ring.
From Verif Require Import Base Num Tensor Spec Spec3 Spec10 MCommon MCP MOpt MOptLR PBase PTensor PSum PMttkrp PMat PMatAlg PResid PGrad PSolve PRank POptLR.
Import ListNotations.
Local Close Scope Q_scope.

Section P.
Context {N : num} (RL : ring_laws N).
Let RT : ring_theory (@n0 N) n1 nadd nmul nsub nopp (@eq N) := RL.
Add Ring Nring : RT.
Local Open Scope num_scope.
Implicit Types M A G L X : tensor N.

Lemma shift_eq (c q x d1 d2 : N) : c + (q + d2 - x) = c + (q + d1 - x) + (d2 - d1).
Proof. ring. Qed.
Lemma usv_mul (U s VT B : tensor N) k r c c' : is_mat U r k -> is_mat VT k c -> is_mat B c c' ->
  mmul (usv k U s VT) B = usv k U s (mmul VT B).
Proof.
  intros HU HV HB. unfold usv. assert (HD : is_mat (mdiag k (fun i => at_ s [i])) k k) by apply mdiag_mat.
  apply (mmul_assoc RL _ VT B r k c c'); auto. eapply mmul_mat; eauto.
Qed.
(** C["ik"] = s["k"] * A["ij"] * B["jk"] *)
Lemma assign_sab C s (A B : tensor N) r q c : lens C = [r; c] -> lens s = [c] -> is_mat A r q -> is_mat B q c -> wf s ->
  assign false C sik [prodt [(s, [ch_k]); (A, sij); (B, sjk)]] = Ok (mmul (mmul A B) (mdiag c (fun i => at_ s [i]))).
Proof.
  intros HC Hs HA HB Hw. assert (HAB : is_mat (mmul A B) r c) by (eapply mmul_mat; eauto). rewrite (mmul_diag_r RL _ r c) by auto.
  set (dd := fun z : Z => if Z.eqb z ch_i then r else if Z.eqb z ch_k then c else q).
  set (fg := [((s, [ch_k]), fun e : env => at_ s [e ch_k]); ((A, sij), fun e : env => el A (e ch_i) (e ch_j)); ((B, sjk), fun e : env => el B (e ch_j) (e ch_k))]).
  assert (Hfg : fgrep dd fg).
  { repeat constructor; cbn [fst snd]; first [apply HA|apply HB|auto]. }
  change [prodt [(s, [ch_k]); (A, sij); (B, sjk)]] with [mkTerm n1 (map fst fg)].
  change (@mk N r c) with (@mk N (dd ch_i) (dd ch_k)). apply (assign_mat dd).
  - discriminate.
  - auto.
  - intros t [<-|[]]. apply fgrep_fit; auto.
  - intros i j Hi Hj. change (dd ch_i) with r in Hi. change (dd ch_k) with c in Hj. cbn [tsval fold_left].
    rewrite (tval_rep RL dd [ch_i; ch_k] fg [ch_j]); auto.
    + cbn [sumc]. rewrite (Rmul_1_l RL). rewrite (el_mmul A B r q c) by auto. rewrite <- (bigsum_mul_r RL). apply bigsum_ext. intros x Hx.
      cbn [bigprod fold_right map fst snd fg]. unfold eab, upd. cbn. ring.
    + repeat constructor; cbn; intuition discriminate.
    + intros z. cbn. intuition (subst; try discriminate; auto).
    + intros z [<-|[<-|[]]]; unfold eab, upd; cbn; auto.
    + intros p [<-|[<-|[<-|[]]]]; cbn [snd]; try apply el_env. intros e1 e2 H12. rewrite H12. auto.
Qed.
(** C["ik"] = A["ij"] * s["j"] * B["jk"] *)
Lemma assign_asb C s (A B : tensor N) r q c : lens C = [r; c] -> lens s = [q] -> is_mat A r q -> is_mat B q c -> wf s ->
  assign false C sik [prodt [(A, sij); (s, [ch_j]); (B, sjk)]] = Ok (mmul (mmul A (mdiag q (fun i => at_ s [i]))) B).
Proof.
  intros HC Hs HA HB Hw. assert (HAD : is_mat (mmul A (mdiag q (fun i => at_ s [i]))) r q) by (eapply mmul_mat; eauto; apply mdiag_mat).
  rewrite (mmul_mk _ B r q c) by auto.
  set (dd := fun z : Z => if Z.eqb z ch_i then r else if Z.eqb z ch_k then c else q).
  set (fg := [((A, sij), fun e : env => el A (e ch_i) (e ch_j)); ((s, [ch_j]), fun e : env => at_ s [e ch_j]); ((B, sjk), fun e : env => el B (e ch_j) (e ch_k))]).
  assert (Hfg : fgrep dd fg).
  { repeat constructor; cbn [fst snd]; first [apply HA|apply HB|auto]. }
  change [prodt [(A, sij); (s, [ch_j]); (B, sjk)]] with [mkTerm n1 (map fst fg)].
  change (@mk N r c) with (@mk N (dd ch_i) (dd ch_k)). apply (assign_mat dd).
  - discriminate.
  - auto.
  - intros t [<-|[]]. apply fgrep_fit; auto.
  - intros i j Hi Hj. change (dd ch_i) with r in Hi. change (dd ch_k) with c in Hj. cbn [tsval fold_left].
    rewrite (tval_rep RL dd [ch_i; ch_k] fg [ch_j]); auto.
    + cbn [sumc]. rewrite (Rmul_1_l RL). apply bigsum_ext. intros x Hx. apply in_seq in Hx. change (dd ch_j) with q in Hx.
      rewrite (mmul_diag_r RL A r q) by auto. rewrite el_mk by (auto; lia).
      cbn [bigprod fold_right map fst snd fg]. unfold eab, upd. cbn. ring.
    + repeat constructor; cbn; intuition discriminate.
    + intros z. cbn. intuition (subst; try discriminate; auto).
    + intros z [<-|[<-|[]]]; unfold eab, upd; cbn; auto.
    + intros p [<-|[<-|[<-|[]]]]; cbn [snd]; try apply el_env. intros e1 e2 H12. rewrite H12. auto.
Qed.
Context (LA : lapack N).
Lemma rhs_ok M A G r R : is_mat M r R -> is_mat A r R -> is_mat G R R ->
  (rhs <- matrixDot A G ;; assign false rhs sij [mkTerm n1 [(M, sij)]; mkTerm (- n1) [(rhs, sij)]]) = Ok (msub M (mmul A G)).
Proof.
  intros HM HA HG. unfold matrixDot. rewrite (is_mat_nrow _ _ _ HA), (is_mat_ncol _ _ _ HG).
  rewrite (assign_mm RL _ A G r R R) by (try reflexivity; first [apply HA|apply HG]). cbn [bind]. rewrite <- (mmul_mk A G r R R) by auto.
  assert (HAG : is_mat (mmul A G) r R) by (eapply mmul_mat; eauto).
  rewrite (assign_lin RL (mmul A G) M (mmul A G) n1 (- n1) r R) by (first [apply HAG|apply HM]). f_equal.
  symmetry. apply mat_mk; [apply msub_mat'; auto|]. intros i j Hi Hj. rewrite (el_msub _ _ r R) by auto. ring.
Qed.
(** the decomposition taken of the transformed right-hand side *)
Definition decomp (X : tensor N) (k : nat) (random : option nat) : res (tensor N * tensor N * tensor N) :=
  match random with Some seed => randomized_svd LA X seed k 1 | None => Ok (svd LA X k) end.
Lemma chol_update_ok M A G r R k random : is_mat M r R -> is_mat A r R -> is_mat G R R ->
  let L := cholesky LA G in is_mat L R R ->
  (forall B q, is_mat B q R -> is_mat (solve_tri LA B L true false true) q R /\ mmul (solve_tri LA B L true false true) (mtrans L) = B) ->
  (forall B q, is_mat B q R -> is_mat (solve_tri LA B L true false false) q R /\ mmul (solve_tri LA B L true false false) L = B) ->
  exists X, is_mat X r R /\ mmul X (mtrans L) = msub M (mmul A G) /\
    (forall U s VT, decomp X k random = Ok (U, s, VT) -> is_mat VT k R ->
      exists VT', get_rankR_update_cholesky LA k M A G random = Ok (U, s, VT') /\ is_mat VT' k R /\ mmul VT' L = VT).
Proof.
  intros HM HA HG L HL H1 H2. assert (Er := rhs_ok M A G r R HM HA HG).
  destruct (H1 (msub M (mmul A G)) r) as [HX EX]; [apply msub_mat'; auto|]. exists (solve_tri LA (msub M (mmul A G)) L true false true).
  split; auto. split; auto. unfold get_rankR_update_cholesky. destruct (matrixDot A G) as [rhs|]; [|discriminate]. cbn [bind] in Er |- *. rewrite Er. cbn [bind].
  fold L. set (X := solve_tri LA (msub M (mmul A G)) L true false true) in *. intros U s VT Ed HV. fold (decomp X k random). rewrite Ed. cbn [bind].
  destruct (H2 VT k HV) as [HV' EV']. eauto.
Qed.
(** the root of a matrix given by an orthogonal decomposition U diag(s) U^T *)
Definition sq_root (U s : tensor N) (k : nat) : tensor N := mmul U (mdiag k (fun i => nsqrt (at_ s [i]))).
Lemma svd_update_ok M A G r R k random U s VTg : is_mat M r R -> is_mat A r R -> is_mat G R R ->
  svd LA G R = (U, s, VTg) -> is_svd G U s VTg R -> VTg = mtrans U ->
  (forall i, (i < R)%nat -> nsqrt (at_ s [i]) * nsqrt (at_ s [i]) = at_ s [i] /\ nsqrt (at_ s [i]) * (n1 / nsqrt (at_ s [i])) = n1) ->
  let L := sq_root U s R in
  is_mat L R R /\ G = mmul L (mtrans L) /\
  exists X, is_mat X r R /\ mmul X (mtrans L) = msub M (mmul A G) /\
    (forall xU xs xVT, decomp X k random = Ok (xU, xs, xVT) -> is_mat xVT k R ->
      exists VT', get_rankR_update_svd LA k M A G random = Ok (xU, xs, VT') /\ is_mat VT' k R /\ mmul VT' L = xVT).
Proof.
  intros HM HA HG E Hsvd EV Hsq L. destruct Hsvd as (HU & Hs & Hws & HV & EG & U1 & U2 & V1 & V2).
  set (Dq := mdiag R (fun i => nsqrt (at_ s [i]))). set (Di := mdiag R (fun i => n1 / nsqrt (at_ s [i]))). set (Ds := mdiag R (fun i => at_ s [i])).
  assert (HDq : is_mat Dq R R) by apply mdiag_mat. assert (HDi : is_mat Di R R) by apply mdiag_mat. assert (HDs : is_mat Ds R R) by apply mdiag_mat.
  assert (HUt := mtrans_mat U R R HU).
  assert (Edd : mmul Dq Dq = Ds).
  { unfold Dq. rewrite (mdiag_mul RL). apply (mat_ext _ _ R R); try apply mdiag_mat. intros i j Hi Hj. unfold Ds. rewrite !el_mdiag by auto. destruct (Nat.eqb i j); auto. apply Hsq; auto. }
  assert (Edi : mmul Dq Di = mid R).
  { unfold Dq, Di. rewrite (mdiag_mul RL). apply (mat_ext _ _ R R); try apply mdiag_mat. intros i j Hi Hj. unfold mid. rewrite !el_mdiag by auto. destruct (Nat.eqb i j); auto. apply Hsq; auto. }
  assert (Eid : mmul Di Dq = mid R).
  { unfold Dq, Di. rewrite (mdiag_mul RL). apply (mat_ext _ _ R R); try apply mdiag_mat. intros i j Hi Hj. unfold mid. rewrite !el_mdiag by auto. destruct (Nat.eqb i j); auto.
    rewrite (Rmul_comm RL). apply Hsq; auto. }
  assert (EDt : mtrans Dq = Dq).
  { apply (mat_ext _ _ R R); auto; [apply mtrans_mat; auto|]. intros i j Hi Hj. rewrite (el_mtrans Dq R R) by auto. unfold Dq. rewrite !el_mdiag by auto.
    rewrite (Nat.eqb_sym j i). destruct (Nat.eqb_spec i j); subst; auto. }
  assert (HL : is_mat L R R) by (eapply mmul_mat; eauto).
  assert (ELt : mtrans L = mmul Dq (mtrans U)).
  { unfold L, sq_root. fold Dq. rewrite (mtrans_mmul RL U Dq R R R) by auto. rewrite EDt. auto. }
  split; auto. split.
  { rewrite ELt. unfold L, sq_root. fold Dq. rewrite (mmul_assoc RL U Dq _ R R R R) by (auto; eapply mmul_mat; eauto).
    rewrite <- (mmul_assoc RL Dq Dq _ R R R R), Edd by auto. rewrite <- (mmul_assoc RL U Ds _ R R R R) by auto. rewrite EG, EV. reflexivity. }
  assert (Er := rhs_ok M A G r R HM HA HG). set (rhs0 := msub M (mmul A G)) in *. assert (Hr0 : is_mat rhs0 r R) by (apply msub_mat'; auto).
  assert (HrU : is_mat (mmul rhs0 U) r R) by (eapply mmul_mat; eauto).
  exists (mmul (mmul rhs0 U) Di). assert (HX : is_mat (mmul (mmul rhs0 U) Di) r R) by (eapply mmul_mat; eauto). split; auto. split.
  { rewrite ELt. rewrite (mmul_assoc RL _ Di _ r R R R) by (auto; eapply mmul_mat; eauto). rewrite <- (mmul_assoc RL Di Dq _ R R R R), Eid by auto.
    rewrite (mmul_id_l RL _ R R) by auto. rewrite (mmul_assoc RL rhs0 U _ r R R R), U2 by auto. apply (mmul_id_r RL _ r R); auto. }
  unfold get_rankR_update_svd. destruct (matrixDot A G) as [rhs|]; [|discriminate]. cbn [bind] in Er |- *. rewrite Er. cbn [bind]. rewrite (is_mat_ncol _ _ _ HG), E.
  cbv zeta. set (Sg := mkT (lens s) (map (fun x => n1 / nsqrt x) (data s))).
  assert (HSg : lens Sg = [R] /\ wf Sg). { split; [exact Hs|]. unfold wf, Sg in *. cbn [lens data]. rewrite map_length. auto. }
  assert (ESg : mdiag R (fun i => at_ Sg [i]) = Di).
  { apply (mat_ext _ _ R R); try apply mdiag_mat. intros i j Hi Hj. unfold Di. rewrite !el_mdiag by auto. destruct (Nat.eqb i j); auto.
    unfold at_, Sg. cbn [lens data]. rewrite Hs. cbn [lin]. unfold wf in Hws. rewrite Hs in Hws. cbn in Hws. rewrite (nth_map_lt _ _ _ n0) by lia. auto. }
  destruct HSg as [HS1 HS2]. rewrite (is_mat_nrow _ _ _ Hr0), (is_mat_ncol _ _ _ Hr0).
  rewrite (assign_sab _ Sg rhs0 U r R R) by auto. cbn [bind]. rewrite ESg.
  intros xU xs xVT Ed HxV. fold (decomp (mmul (mmul rhs0 U) Di) k random). rewrite Ed. cbn [bind].
  rewrite (assign_asb xVT Sg xVT VTg k R R) by (auto; apply HxV). cbn [bind]. rewrite ESg. eexists. split; [reflexivity|].
  assert (HVD : is_mat (mmul xVT Di) k R) by (eapply mmul_mat; eauto). split; [eapply mmul_mat; eauto|].
  rewrite EV. unfold L, sq_root. fold Dq. rewrite (mmul_assoc RL _ (mtrans U) _ k R R R) by (auto; eapply mmul_mat; eauto).
  rewrite <- (mmul_assoc RL (mtrans U) U Dq R R R R), U1, (mmul_id_l RL Dq R R) by auto.
  rewrite (mmul_assoc RL xVT Di Dq k R R R), Eid by auto. apply (mmul_id_r RL _ k R); auto.
Qed.
(** consequences, whatever the factorisation *)
Lemma low_rank_leaves A L G M X U s VT VT' r R k :
  is_mat A r R -> is_mat M r R -> is_mat L R R -> is_mat X r R -> G = mmul L (mtrans L) -> mmul X (mtrans L) = msub M (mmul A G) ->
  is_mat U r k -> is_mat VT' k R -> mmul VT' L = VT ->
  msub M (mmul (madd A (usv k U s VT')) G) = mmul (msub X (usv k U s VT)) (mtrans L) /\
  quad r R G M (madd A (usv k U s VT')) = quad r R G M A + dist2 r R X (usv k U s VT) - minner r R X X.
Proof.
  intros HA HM HL HX EG EX HU HV EV. destruct (usv_mk RL U s VT' k r R HU HV) as [HD _].
  assert (E : mmul (usv k U s VT') L = usv k U s VT) by (rewrite (usv_mul U s VT' L k r R R) by auto; rewrite EV; auto).
  split.
  - rewrite (update_leaves RL A L G M X r R) by auto. rewrite E. auto.
  - rewrite (update_quad RL A L G M X r R) by auto. rewrite E. auto.
Qed.
Lemma full_rank_solves A L G M X U s VT VT' r R k :
  is_mat A r R -> is_mat M r R -> is_mat L R R -> is_mat X r R -> G = mmul L (mtrans L) -> mmul X (mtrans L) = msub M (mmul A G) ->
  is_mat U r k -> is_mat VT' k R -> mmul VT' L = VT -> usv k U s VT = X ->
  mmul (madd A (usv k U s VT')) G = M.
Proof.
  intros HA HM HL HX EG EX HU HV EV Ex. destruct (low_rank_leaves A L G M X U s VT VT' r R k) as [H _]; auto. rewrite Ex in H.
  destruct (usv_mk RL U s VT' k r R HU HV) as [HD _]. assert (HG : is_mat G R R) by (rewrite EG; eapply mmul_mat; eauto; apply mtrans_mat; auto).
  assert (HP : is_mat (mmul (madd A (usv k U s VT')) G) r R) by (eapply mmul_mat; eauto; apply madd_mat; auto).
  assert (HLt := mtrans_mat L R R HL).
  apply (mat_ext _ _ r R); auto. intros i j Hi Hj.
  assert (H1 : el (msub M (mmul (madd A (usv k U s VT')) G)) i j = n0).
  { rewrite H. rewrite (el_mmul _ _ r R R) by (auto; apply msub_mat'; auto). apply (bigsum_zero RL). intros x Hx. apply in_seq in Hx.
    rewrite (el_msub _ _ r R) by (auto; lia). ring. }
  rewrite (el_msub _ _ r R) in H1 by auto. replace (el M i j) with (el M i j - el (mmul (madd A (usv k U s VT')) G) i j + el (mmul (madd A (usv k U s VT')) G) i j) by ring.
  rewrite H1. ring.
Qed.
End P.
