(** Normalize *)
From Coq Require Import List ZArith Lia Bool Arith Permutation Ring Reals Lra.
From Verif Require Import Base Num NumR Tensor Spec MCommon PBase PTensor PSum PMttkrp PMat PMatAlg PResid PGrad.
Import ListNotations.

Section P.
Context {N : num} (RL : ring_laws N).
Let RT : ring_theory (@n0 N) n1 nadd nmul nsub nopp (@eq N) := RL.
Add Ring Nring : RT.
Local Open Scope num_scope.
Implicit Types A B C : tensor N.

(** the loop computes the product of the norms and rescales every factor *)
Lemma Normalize_scales (W : list (tensor N)) R :
  (forall m, m < length W -> exists r, is_mat (fac W m) r R) ->
  let g := nroot (length W) (bigprod (seq 0 (length W)) (fun m => norm2 (fac W m))) in
  Normalize W (length W) = Ok (map (fun A => mscal (g / norm2 A) A) W).
Proof.
  intros HW g. unfold Normalize. set (o := length W).
  destruct (for_inv (fun i (x : N) => x = bigprod (rev (seq 0 i)) (fun m => norm2 (fac W m)))
    (fun i norm => Wi <- lget W i ;; Ok (norm * norm2 Wi)) 0 o n1) as (x & E & Hx).
  - lia.
  - reflexivity.
  - intros i x Hi ->. rewrite (lget_ok W i tnil) by (fold o; lia). cbn [bind]. eexists; split; [reflexivity|].
    rewrite seq_S, rev_app_distr. cbn [rev app Nat.add]. rewrite bigprod_cons. unfold fac. ring.
  - rewrite E. cbn [bind]. rewrite Hx, <- (bigprod_perm RL _ _ _ (Permutation_rev (seq 0 o))).
    fold g.
    destruct (for_inv (fun i (W' : list (tensor N)) => length W' = o /\
        forall m, m < o -> fac W' m = if m <? i then mscal (g / norm2 (fac W m)) (fac W m) else fac W m)
      (fun i W => Wi <- lget W i ;; let norm_Wi := norm2 Wi in
         Wi' <- assign false Wi sij [mkTerm (g / norm_Wi) [(Wi, sij)]] ;; lput W i Wi') 0 o W) as (W' & E' & HL & HF).
    + lia.
    + split; auto.
    + intros i W' Hi [HL HF]. rewrite (lget_ok W' i tnil) by lia. cbn [bind]. cbv zeta.
      fold (fac W' i). rewrite HF by lia. destruct (Nat.ltb_spec i i); [lia|].
      destruct (HW i) as [r Hr]; [fold o; lia|].
      rewrite (assign_scal RL _ _ _ r R) by apply Hr. cbn [bind]. rewrite lput_ok by lia.
      eexists; split; [reflexivity|]. split; [rewrite lset_length; auto|].
      intros m Hm. unfold fac at 1. rewrite lset_nth by lia. destruct (Nat.eqb_spec m i).
      * subst. destruct (Nat.ltb_spec i (S i)); [|lia]. symmetry.
        apply mat_mk; [apply mscal_mat; auto|]. intros. apply (el_mscal _ _ r R); auto.
      * fold (fac W' m). rewrite HF by auto. natcases; auto.
    + change (fun (i : nat) (W0 : list (tensor N)) => _) with
        (fun i (W0 : list (tensor N)) => Wi <- lget W0 i ;; let norm_Wi := norm2 Wi in
         Wi' <- assign false Wi sij [mkTerm (g / norm_Wi) [(Wi, sij)]] ;; lput W0 i Wi').
      rewrite E'. f_equal. apply nth_ext with (d:=tnil) (d':=tnil); [rewrite map_length; auto|].
      rewrite HL. intros k Hk. fold (fac W' k). rewrite HF by auto. natcases.
      rewrite (nth_map_lt _ _ _ tnil) by auto. auto.
Qed.

Lemma bigprod_const {X} (l : list X) (a : N) : bigprod l (fun _ => a) = nat_rect (fun _ => car N) n1 (fun _ p => a * p) (length l).
Proof. induction l; simpl; auto. rewrite <- IHl. reflexivity. Qed.

(** rescaling by coefficients whose product is one does not change the represented tensor *)
Lemma scale_cp (W : list (tensor N)) R (c : nat -> N) :
  (forall m, m < length W -> exists r, is_mat (fac W m) r R) ->
  bigprod (seq 0 (length W)) c = n1 ->
  forall W', length W' = length W -> (forall m, m < length W -> fac W' m = mscal (c m) (fac W m)) ->
  cp_full W' R = cp_full W R.
Proof.
  intros HW Hc W' HL HF. unfold cp_full.
  assert (HN : map nrow W' = map nrow W).
  { apply nth_ext with (d:=0%nat) (d':=0%nat); [rewrite !map_length; auto|].
    rewrite map_length. intros m Hm. rewrite !(nth_map_lt _ _ _ tnil) by lia. fold (fac W' m) (fac W m).
    rewrite HF by lia. reflexivity. }
  rewrite HN. apply tabulate_ext. intros x Hx. unfold cp_at. rewrite HL. apply bigsum_ext. intros r Hr. apply in_seq in Hr.
  transitivity (bigprod (seq 0 (length W)) (fun m => c m * el (fac W m) (nth m x 0%nat) r)).
  - apply bigprod_ext. intros m Hm. apply in_seq in Hm. rewrite HF by lia.
    destruct (HW m) as [k Hk]; [lia|]. apply (el_mscal _ _ k R); auto; [|lia].
    assert (Hb : nth m x 0%nat < nth m (map nrow W) 0%nat).
    { apply inb_nth; auto. rewrite map_length; lia. }
    rewrite (nth_map_lt _ _ _ tnil) in Hb by lia. fold (fac W m) in Hb. rewrite (is_mat_nrow _ _ _ Hk) in Hb. auto.
  - rewrite (bigprod_mul RL), Hc. ring.
Qed.
End P.

Local Open Scope R_scope.
Lemma norm2_scal (a : R) (A : tensor Rnum) r c : 0 <= a -> is_mat A r c ->
  norm2 (mscal (N:=Rnum) a A) = a * norm2 A.
Proof.
  intros Ha [HA HwA]. unfold norm2.
  assert (E : bigsum (data (mscal (N:=Rnum) a A)) (fun x : Rnum => nmul x x) = Rmult (a * a) (bigsum (data A) (fun x : Rnum => nmul x x))).
  { unfold mscal, tabulate. cbn [data]. transitivity (Rmult (a * a) (bigsum (map (at_ A) (all_idx (lens A))) (fun x : Rnum => nmul x x))); [|rewrite (at_all A) by auto; reflexivity]. rewrite !bigsum_map.
    rewrite <- (bigsum_mul_l Rnum_ring). apply bigsum_ext. intros x _. cbn. ring. }
  rewrite E. cbn. rewrite sqrt_mult_alt by (apply Rle_0_sqr). rewrite sqrt_square by auto. auto.
Qed.
Lemma norm2_nonneg (A : tensor Rnum) : 0 <= norm2 A.
Proof. apply sqrt_pos. Qed.

Section R.
Context (W : list (tensor Rnum)) (R : nat).
Hypothesis Hlen : (1 <= length W)%nat.
Hypothesis HW : forall m, (m < length W)%nat -> exists r, is_mat (fac W m) r R.
Hypothesis Hnz : forall m, (m < length W)%nat -> norm2 (fac W m) <> 0.
Let P : car Rnum := @bigprod Rnum nat (seq 0 (length W)) (fun m => norm2 (fac W m)).
Let g := Rroot (length W) P.

Lemma P_pos : 0 < P.
Proof.
  unfold P. assert (H : forall m, In m (seq 0 (length W)) -> 0 < norm2 (fac W m)).
  { intros m Hm. apply in_seq in Hm. pose proof (norm2_nonneg (fac W m)). specialize (Hnz m). lra || (assert (norm2 (fac W m) <> 0) by (apply Hnz; lia); lra). }
  induction (seq 0 (length W)); cbn; [lra|]. apply Rmult_lt_0_compat; [apply H; left; auto|apply IHl; intros; apply H; right; auto].
Qed.
Lemma g_pow : g ^ length W = P.
Proof. apply Rroot_pow; [lia|]. left. apply P_pos. Qed.
Lemma g_pos : 0 <= g.
Proof. apply Rroot_nonneg. Qed.
Lemma pos_norm m : (m < length W)%nat -> 0 < norm2 (fac W m).
Proof. intros Hm. pose proof (norm2_nonneg (fac W m)). specialize (Hnz m Hm). lra. Qed.

Theorem Normalize_R : exists W', Normalize W (length W) = Ok W' /\ length W' = length W /\
  (forall m, (m < length W)%nat -> fac W' m = mscal (N:=Rnum) (g / norm2 (fac W m)) (fac W m)) /\
  cp_full W' R = cp_full W R /\
  (forall m, (m < length W)%nat -> norm2 (fac W' m) = g).
Proof.
  pose proof (Normalize_scales Rnum_ring W R HW) as E. cbv zeta in E.
  eexists; split; [exact E|]. change (nroot (length W) _) with g.
  assert (HF : forall m, (m < length W)%nat -> fac (map (fun A : tensor Rnum => mscal (N:=Rnum) (g / norm2 A) A) W) m = mscal (N:=Rnum) (g / norm2 (fac W m)) (fac W m)).
  { intros m Hm. unfold fac. rewrite (nth_map_lt _ _ _ tnil) by auto. auto. }
  split; [rewrite map_length; auto|]. split; [exact HF|]. split.
  - apply (scale_cp Rnum_ring W R (fun m => g / norm2 (fac W m))); auto; [|rewrite map_length; auto].
    assert (Q : forall l, (forall m, In m l -> (m < length W)%nat) ->
      Rmult (@bigprod Rnum nat l (fun m => g / norm2 (fac W m))) (@bigprod Rnum nat l (fun m => norm2 (fac W m))) = g ^ length l).
    { induction l as [|a l IH]; intros Hl; cbn; [ring|]. rewrite <- IH by (intros; apply Hl; right; auto).
      unfold bigprod. cbn. field. specialize (Hnz a). apply Hnz. apply Hl. left; auto. }
    specialize (Q (seq 0 (length W))). rewrite seq_length, g_pow in Q.
    pose proof P_pos as HP. fold P in Q. apply (Rmult_eq_reg_r P); [|lra].
    etransitivity; [apply Q|symmetry; apply Rmult_1_l]. intros m Hm. apply in_seq in Hm. lia.
  - intros m Hm. rewrite HF by auto. destruct (HW m Hm) as [r Hr].
    pose proof (pos_norm m Hm). rewrite (norm2_scal _ _ r R); auto.
    { unfold Rdiv. rewrite Rmult_assoc, Rinv_l by lra. apply Rmult_1_r. }
    apply Rmult_le_pos; [apply g_pos|]. left. apply Rinv_0_lt_compat. auto.
Qed.
End R.

Lemma Normalize_norms (W : list (tensor Rnum)) (R : nat) :
  (1 <= length W)%nat -> (forall m, (m < length W)%nat -> exists r, is_mat (fac W m) r R) ->
  (forall m, (m < length W)%nat -> norm2 (fac W m) <> 0%R) ->
  exists W', Normalize W (length W) = Ok W' /\
    forall m, (m < length W)%nat ->
      (0 <= norm2 (fac W' m))%R /\
      (norm2 (fac W' m) ^ length W)%R = @bigprod Rnum nat (seq 0 (length W)) (fun k => norm2 (fac W k)).
Proof.
  intros H1 H2 H3. destruct (Normalize_R W R H1 H2 H3) as (W' & E1 & E2 & _ & _ & E4).
  exists W'. split; [auto|]. intros m Hm. split; [apply norm2_nonneg|]. rewrite E4 by auto.
  apply (g_pow W H1 H3).
Qed.
Lemma normalize_example : exists W : list (tensor Rnum), (2 <= length W)%nat /\
  (forall m, (m < length W)%nat -> exists r, is_mat (fac W m) r 1) /\
  (forall m, (m < length W)%nat -> norm2 (fac W m) <> 0%R) /\ norm2 (fac W 0) <> norm2 (fac W 1).
Proof.
  set (M := fun x : R => mkT [1%nat; 1%nat] [x : Rnum] : tensor Rnum).
  assert (E : forall x, (0 <= x)%R -> norm2 (M x) = x).
  { intros x Hx. unfold norm2, M. cbn. rewrite Rplus_0_r. apply sqrt_square. auto. }
  exists [M 1; M 2]. split; [cbn; lia|]. split; [|split].
  - intros m Hm. exists 1%nat. destruct m as [|[|m]]; [split; reflexivity|split; reflexivity|cbn in Hm; lia].
  - intros m Hm. destruct m as [|[|m]]; [| |cbn in Hm; lia]; unfold fac; cbn [nth]; rewrite E; lra.
  - unfold fac. cbn [nth]. rewrite !E; lra.
Qed.
