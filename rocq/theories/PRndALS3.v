(** alsCP's direct sweep in rounded arithmetic *)
From Coq Require Import List ZArith Reals Lra Lia Bool Arith Permutation.
From Verif Require Import Base Num NumR Tensor Spec Spec27 Spec28 Spec29 MCommon MCP PBase PTensor PSum PMttkrp PMat PMatAlg PKhatri PSolve PALS PTree PDT PGrad PResid PRnd PRndDT PRndDT2 PRndKR PRndGrad PRndGrad2 PRndALS PRndALS2.
Import ListNotations.
Local Open Scope nat_scope.
Section Rnd.
Context (rnd : Rdefinitions.R -> Rdefinitions.R) (u : Rdefinitions.R) (RE : rel_err rnd u).
Notation N := (Fl rnd).
Context (LA : lapack N) (V : tensor N) (rk s : nat).
Let o := order V.
Hypothesis Hsh : svd_shaped (svd LA).
Hypothesis Ho : 2 <= o <= 10.
Hypothesis Hcube : lens V = repeat s o.
Context (F : list (tensor N)).
Hypothesis HF : mats_ok V F rk.

Theorem alsCP_mode_r W (Sm : tensor N) i : factors_ok V W rk -> i < o -> lens Sm = [rk; rk] ->
  exists A Sm', alsCP_mode LA V F i (W, Sm, lbuf o) = Ok (setf W i A, Sm', lbuf o) /\ is_mat A (nth i (lens V) 0) rk /\ lens Sm' = [rk; rk] /\
    als_solve_within u (mode_roundings (lens V) i + 2) (svd LA) 0%R V F rk W i (setf W i A).
Proof.
  intros HW Hi HS. unfold alsCP_mode. fold o. rewrite swap_lbuf by auto. cbn [bind].
  pose proof HW as (HwV & HL & HWm). fold o in HL, HWm. destruct HF as (HFl & HFm). fold o in HFl, HFm.
  rewrite (lget_ok W i tnil) by lia. cbn [bind]. fold (fac W i).
  assert (HVs : forall m, m < o -> nth m (lens V) 0 = s) by (intros; rewrite Hcube; apply nth_rep; auto).
  destruct (HWm i Hi) as [HWi HwWi].
  assert (nrow (fac W i) = s) as -> by (unfold nrow; rewrite HWi; apply HVs; auto).
  assert (ncol (fac W i) = rk) as -> by (unfold ncol; rewrite HWi; auto).
  rewrite (make_index_ok o i _ _ (fun _ => s)); [|lia|lia|].
  2:{ intros m Hm. rewrite (lget_ok _ _ 0) by (rewrite Hcube, repeat_length; auto). rewrite HVs; auto. }
  cbn [bind].
  assert (HLs : length (swapped o i) = o) by (unfold swapped; rewrite swapl_length, seq_length; auto).
  replace (map (fun _ : nat => s) (firstn (o - 1) (swapped o i))) with (repeat s (o - 1)).
  2:{ apply nth_ext with (d:=0) (d':=0); [rewrite repeat_length, map_length, firstn_length; lia|].
      rewrite repeat_length. intros k Hk. rewrite nth_rep by auto.
      rewrite (nth_map_lt _ _ _ 0) by (rewrite firstn_length; lia). auto. }
  destruct (PRndKR.KhatriRao_contract_ok rnd u RE V W rk s (swapped o i) Ho Hcube HW (swapped_perm o i ltac:(lia)) (zeros [s; rk]) i) as (M & EM & HM); auto.
  { apply swapped_last; lia. }
  unfold o in EM |- *. rewrite EM. fold o. cbn [bind].
  destruct (gram_index_r rnd u RE Sm W o rk (swapped o i) i) as (S & ES & HS'); auto; try lia.
  { eapply factors_cols; eauto. } { apply swapped_perm; lia. } { apply swapped_last; lia. }
  rewrite ES. cbn [bind]. unfold o in HS'. rewrite (kgram_roundings rnd V W rk i HW) in HS'.
  rewrite (lget_ok F i tnil) by lia. cbn [bind]. fold (fac F i).
  destruct (roundings_le rnd u RE V i 0%R) as [K3 K4]; [exact Hi|fold o; lia|].
  destruct (rhs_r rnd u RE V F W rk i 0%R Hi ltac:(fold o; lia) (mode_roundings (lens V) i + 2) M ltac:(lia) HM (HFm i Hi)) as (M2 & EM2 & HM2). rewrite EM2. cbn [bind].
  pose proof (lhs_r0 rnd u RE V W rk i 0%R Hi ltac:(fold o; lia) S eq_refl HS') as HS2.
  destruct (solve_step_r rnd u RE V F W rk i 0%R HW Hi _ LA M2 S Hsh HM2 HS2) as (A & EA & HA & Hstep).
  rewrite EA. cbn [bind].
  rewrite lput_ok by lia. cbn [bind]. rewrite swap_back by auto. cbn [bind].
  exists A, S. split; [reflexivity|]. split; [exact HA|]. split; [apply HS2|exact Hstep].
Qed.
Theorem alsCP_sweep_r W (Sm : tensor N) : factors_ok V W rk -> lens Sm = [rk; rk] ->
  exists W' Sm', alsCP_sweep LA V F (W, Sm, lbuf o) = Ok (W', Sm', lbuf o) /\ factors_ok V W' rk /\ lens Sm' = [rk; rk] /\
    exists Ws : nat -> list (tensor N), Ws 0 = W /\ Ws o = W' /\
      forall n, n < o -> als_solve_within u (mode_roundings (lens V) n + 2) (svd LA) 0%R V F rk (Ws n) n (Ws (S n)).
Proof.
  intros HW HSm. unfold alsCP_sweep. fold o.
  destruct (for_inv (fun i st => exists (Ws : nat -> list (tensor N)) Sm', st = (Ws i, Sm', lbuf o) /\ lens Sm' = [rk; rk] /\ Ws 0 = W /\ factors_ok V (Ws i) rk /\
      forall n, n < i -> als_solve_within u (mode_roundings (lens V) n + 2) (svd LA) 0%R V F rk (Ws n) n (Ws (S n)))
     (alsCP_mode LA V F) 0 o (W, Sm, lbuf o)) as (st & E & Ws & Sm' & -> & HS' & H0 & H1 & H2).
  - lia.
  - exists (fun _ => W), Sm. split; [reflexivity|]. split; auto. split; auto. split; auto. intros; lia.
  - intros i st Hi (Ws & Sm' & -> & HS' & H0 & H1 & H2).
    destruct (alsCP_mode_r (Ws i) Sm' i H1 ltac:(lia) HS') as (A & Sm2 & E & HA & HSm2 & Hst).
    rewrite E. eexists. split; [reflexivity|].
    exists (fun n => if n <=? i then Ws n else setf (Ws i) i A), Sm2.
    assert (Eb : (S i <=? i) = false) by (apply Nat.leb_gt; lia).
    rewrite Eb. split; [reflexivity|]. split; [exact HSm2|]. split; [exact H0|]. split; [apply setf_factors; auto; fold o; lia|].
    intros n Hn. destruct (Nat.eq_dec n i) as [->|Hne].
    + rewrite Nat.leb_refl, Eb. exact Hst.
    + assert (Ea : (n <=? i) = true) by (apply Nat.leb_le; lia). assert (Ec : (S n <=? i) = true) by (apply Nat.leb_le; lia).
      rewrite Ea, Ec. apply H2. lia.
  - exists (Ws o), Sm'. split; [exact E|]. split; auto. split; auto. exists Ws. auto.
Qed.
End Rnd.
