(** Property C56: the low-rank multi-sweep optimizer, whose step may increase the objective *)
From Coq Require Import List ZArith QArith Lia Bool Arith Permutation Ring Reals Lra.
From Verif Require Import Base Num NumR Tensor Spec Spec3 Spec10 Spec11 MCommon MCP MOpt MOptLR PBase PTensor PSum PMttkrp PMat PMatAlg PResid PGrad PSolve PRank POptStep POptLR PRank2 PALS PMono PMono2 PropOpt PropOptLR PropRank PropGS PropMono2.
Import ListNotations.
Local Close Scope Q_scope.
Local Close Scope R_scope.
Local Open Scope nat_scope.

(** Cholesky factor of a diagonal matrix, solves with a diagonal factor, decomposition by the first columns *)
Definition dLA : lapack Rnum :=
  @mkLapack Rnum (fun X k => (tabulate [nrow X; k] (fun x => at_ X x), tabulate [k] (fun _ => 1%R : Rnum), tabulate [k; ncol X] (fun x => (if nth 0 x 0 =? nth 1 x 0 then 1%R else 0%R)%nat : Rnum)))
   (fun A => mdiag (nrow A) (fun i => sqrt (el A i i) : Rnum))
   (fun B L _ _ _ => tabulate [nrow B; ncol B] (fun x => Rdiv (at_ B x) (el L (nth 1 x 0) (nth 1 x 0)) : Rnum)) (fun X => X) (fun seed ls => zeros ls).
Lemma dLA_tri : tri_shaped (cholesky dLA) (solve_tri dLA).
Proof.
  split.
  - intros S k HS. cbn. rewrite (is_mat_nrow _ _ _ HS). apply mdiag_mat.
  - intros B L r k b1 b2 b3 HB HL. cbn. rewrite (is_mat_nrow _ _ _ HB), (is_mat_ncol _ _ _ HB). split; [reflexivity|apply tabulate_wf].
Qed.
Lemma dLA_low : low_shaped (svd dLA) (qr_q dLA) (rnd dLA).
Proof.
  split; [|split].
  - intros X r c k HX H1 H2. cbn. rewrite (is_mat_nrow _ _ _ HX), (is_mat_ncol _ _ _ HX). repeat split; try reflexivity; apply tabulate_wf.
  - intros X r c HX _. exact HX.
  - intros seed r c. split; [reflexivity|apply tabulate_wf].
Qed.
Lemma dchol s t : cholesky dLA (m2 s 0 0 t) = m2 (sqrt s) 0 0 (sqrt t).
Proof. reflexivity. Qed.
Lemma dsolve_el (B L : tensor Rnum) q b i j : is_mat B q 2 -> (i < q) -> (j < 2) -> el (solve_tri dLA B L true false b) i j = (el B i j / el L j j)%R.
Proof.
  intros HB Hi Hj. cbn [solve_tri dLA]. rewrite (is_mat_nrow _ _ _ HB), (is_mat_ncol _ _ _ HB). unfold el at 1. rewrite at_tabulate by (apply inb2; lia). reflexivity.
Qed.
Lemma dsolve2 a b c d s t f : (s <> 0)%R -> (t <> 0)%R -> solve_tri dLA (m2 a b c d) (m2 s 0 0 t) true false f = m2 (a / s) (b / t) (c / s) (d / t).
Proof. intros Hs Ht. reflexivity. Qed.
Lemma d_exact s t : (0 < s)%R -> (0 < t)%R -> chol_exact (cholesky dLA) (solve_tri dLA) (m2 s 0 0 t) 2.
Proof.
  intros Hs Ht. assert (Hs' := sqrt_lt_R0 s Hs). assert (Ht' := sqrt_lt_R0 t Ht). unfold chol_exact. rewrite dchol. split.
  - split; [apply m2_mat|]. rewrite m2_trans, m2_mul. rewrite !sqrt_sqrt by lra. apply m2_eq; ring.
  - intros B q HB. set (L := m2 (sqrt s) 0 0 (sqrt t)).
    assert (HX : forall f, is_mat (solve_tri dLA B L true false f) q 2) by (intros f; exact (proj2 dLA_tri B L q 2 true false f HB (m2_mat _ _ _ _))).
    assert (HE : forall (f : bool) (L' : tensor Rnum), is_mat L' 2 2 -> el L' 0 1 = 0%R -> el L' 1 0 = 0%R -> el L' 0 0 = sqrt s -> el L' 1 1 = sqrt t -> mmul (solve_tri dLA B L true false f) L' = B).
    { intros f L' HL E1 E2 E3 E4. apply (mat_ext _ _ q 2); [eapply mmul_mat; eauto|auto|]. intros i j Hi Hj. rewrite (el_mmul _ _ q 2 2) by auto.
      cbn -[el solve_tri]. rewrite !(dsolve_el B L q) by (auto; lia). change (el L 0 0) with (sqrt s). change (el L 1 1) with (sqrt t).
      destruct j as [|[|j]]; [rewrite E2, E3|rewrite E1, E4|lia]; field; lra. }
    split; (split; [apply HX|apply HE]); try reflexivity; try apply m2_mat; rewrite m2_trans; apply m2_mat || reflexivity.
Qed.
Definition cV : tensor Rnum := @mkT Rnum [2; 2; 2]%nat [1; 0; 0; 1; 2; 0; 0; 1]%R.
Definition cI : tensor Rnum := m2 1 0 0 1.
Definition cC : tensor Rnum := m2 1 1 2 1.
Ltac mt := apply m2_ext; [apply (mttkrp_mat cV 2)|..]; unfold mttkrp, el; rewrite at_tabulate by (apply inb2; cbn; lia); cbn; unfold mttkrp_at, hgram_at, gram_at; cbn; lra.
Ltac lh := apply m2_ext; [unfold als_lhs; apply madd_mat, hgram_mat|..]; unfold als_lhs; rewrite (el_madd _ _ 2 2) by (try apply hgram_mat; lia);
  unfold hgram, el; rewrite !at_tabulate by (apply inb2; cbn; lia); cbn; unfold mttkrp_at, hgram_at, gram_at; cbn; lra.
Lemma c_full (A B C : tensor Rnum) G ref c n a00 a01 a10 a11 s t inc : 
  mttkrp cV [A; B; C] n 2 = m2 a00 a01 a10 a11 -> als_lhs (0%R : Rnum) [A; B; C] 2 n = m2 s 0 0 t -> (0 < s)%R -> (0 < t)%R ->
  exists G', lr_act (chol_solve (cholesky dLA) (solve_tri dLA)) inc (0%R : Rnum) cV 2 (mkLR [A; B; C] G ref c) (Full n)
    = mkLR (setf [A; B; C] n (m2 (a00 / s) (a01 / t) (a10 / s) (a11 / t))) G' ref c.
Proof.
  intros E1 E2 Hs Ht. eexists. cbn [lr_act]. rewrite E1, E2. apply f_equal4; try reflexivity. f_equal. unfold chol_solve. rewrite dchol, !dsolve2.
  all: assert (Hs' := sqrt_lt_R0 s Hs); assert (Ht' := sqrt_lt_R0 t Ht); try lra.
  assert (Es : (sqrt s * sqrt s = s)%R) by (apply sqrt_sqrt; lra). assert (Et : (sqrt t * sqrt t = t)%R) by (apply sqrt_sqrt; lra).
  set (x := sqrt s) in *. set (y := sqrt t) in *. clearbody x y. subst s t. apply m2_eq; field; lra.
Qed.
Lemma c_m0 : mttkrp cV [cI; cI; cI] 0 2 = cI. Proof. mt. Qed.
Lemma c_s0 : als_lhs (0%R : Rnum) [cI; cI; cI] 2 0 = cI. Proof. lh. Qed.
Lemma c_m1 : mttkrp cV [cI; cI; cI] 1 2 = cI. Proof. mt. Qed.
Lemma c_s1 : als_lhs (0%R : Rnum) [cI; cI; cI] 2 1 = cI. Proof. lh. Qed.
Lemma c_m2 C : mttkrp cV [cI; cI; C] 2 2 = cC. Proof. mt. Qed.
Lemma c_s2 C : als_lhs (0%R : Rnum) [cI; cI; C] 2 2 = cI. Proof. lh. Qed.
Lemma c_m3 : mttkrp cV [cI; cI; cC] 0 2 = m2 5 0 0 2. Proof. mt. Qed.
Lemma c_s3 : als_lhs (0%R : Rnum) [cI; cI; cC] 2 0 = m2 5 0 0 2. Proof. lh. Qed.
Lemma c_m4 : mttkrp cV [cI; cI; cC] 1 2 = m2 5 0 0 2. Proof. mt. Qed.
Lemma c_s4 : als_lhs (0%R : Rnum) [cI; cI; cC] 2 1 = m2 5 0 0 2. Proof. lh. Qed.
Definition cinc := lr_inc (trunc_of (svd dLA) (qr_q dLA) (rnd dLA) false) (cholesky dLA) (solve_tri dLA) 1.
Definition cact := lr_act (chol_solve (cholesky dLA) (solve_tri dLA)) cinc (0%R : Rnum) cV 2.
Lemma c1m : m2 (1 / 1) (0 / 1) (0 / 1) (1 / 1) = cI. Proof. apply m2_eq; lra. Qed.
Lemma act_I n ref c (G : list (tensor Rnum)) : n < 2 -> exists G', cact (mkLR [cI; cI; cI] G ref c) (Full n) = mkLR [cI; cI; cI] G' ref c.
Proof.
  intros Hn. destruct n as [|[|n]]; [|..|lia].
  - destruct (c_full cI cI cI G ref c 0 1 0 0 1 1 1 cinc c_m0 c_s0) as [G' E]; try lra. exists G'. unfold cact. rewrite E, c1m. reflexivity.
  - destruct (c_full cI cI cI G ref c 1 1 0 0 1 1 1 cinc c_m1 c_s1) as [G' E]; try lra. exists G'. unfold cact. rewrite E, c1m. reflexivity.
Qed.
Lemma act_C n ref c (G : list (tensor Rnum)) : n < 2 -> exists G', cact (mkLR [cI; cI; cC] G ref c) (Full n) = mkLR [cI; cI; cC] G' ref c.
Proof.
  assert (E5 : m2 (5 / 5) (0 / 2) (0 / 5) (2 / 2) = cI) by (apply m2_eq; lra).
  intros Hn. destruct n as [|[|n]]; [|..|lia].
  - destruct (c_full cI cI cC G ref c 0 5 0 0 2 5 2 cinc c_m3 c_s3) as [G' E]; try lra. exists G'. unfold cact. rewrite E, E5. reflexivity.
  - destruct (c_full cI cI cC G ref c 1 5 0 0 2 5 2 cinc c_m4 c_s4) as [G' E]; try lra. exists G'. unfold cact. rewrite E, E5. reflexivity.
Qed.
Lemma act_2 ref c (G : list (tensor Rnum)) : exists G', cact (mkLR [cI; cI; cI] G ref c) (Full 2) = mkLR [cI; cI; cC] G' ref c.
Proof.
  assert (E5 : m2 (1 / 1) (1 / 1) (2 / 1) (1 / 1) = cC) by (apply m2_eq; lra).
  destruct (c_full cI cI cI G ref c 2 1 1 2 1 1 1 cinc (c_m2 cI) (c_s2 cI)) as [G' E]; try lra. exists G'. unfold cact. rewrite E, E5. reflexivity.
Qed.
Definition cX : tensor Rnum := m2 0 1 2 0.
Lemma cX_eq : solve_tri dLA (msub cC (mmul cI cI)) (cholesky dLA cI) true false true = cX.
Proof.
  unfold cI at 3. rewrite dchol, sqrt_1. replace (msub cC (mmul cI cI)) with (m2 0 1 2 0).
  - rewrite dsolve2 by lra. apply m2_eq; lra.
  - symmetry. unfold cI. rewrite m2_mul. apply m2_ext; [apply msub_mat'; apply m2_mat|..]; rewrite (el_msub _ _ 2 2) by (try apply m2_mat; lia); cbn; lra.
Qed.
Lemma c_usv : let '(U, s, VT) := svd dLA cX 1 in usv 1 U s VT = m2 0 0 2 0.
Proof.
  cbn [svd dLA]. apply m2_ext.
  - eapply mmul_mat; [eapply mmul_mat; [split; [reflexivity|apply tabulate_wf]|apply mdiag_mat]|split; [reflexivity|apply tabulate_wf]].
  - cbn. lra. 
  - cbn. lra.
  - cbn. lra.
  - cbn. lra.
Qed.
Lemma c_inc c : cinc c cC cI cI = m2 0 0 2 0.
Proof.
  unfold cinc, lr_inc, lr_factors. cbn [trunc_of]. rewrite cX_eq. assert (H := c_usv). destruct (svd dLA cX 1) as [[U s] VT] eqn:E.
  rewrite <- H. f_equal. cbn [svd dLA] in E. injection E as <- <- <-. cbn. unfold tabulate. cbn. rewrite !sqrt_1. f_equal. f_equal; [|f_equal]; lra.
Qed.
Lemma act_low ref c (G : list (tensor Rnum)) : fac ref 2 = cI -> exists G', cact (mkLR [cI; cI; cC] G ref c) (LowRank 2) = mkLR [cI; cI; m2 1 0 2 1] G' ref (S c).
Proof.
  intros Er. eexists. unfold cact. cbn [lr_act]. rewrite c_m2, c_s2, Er, c_inc. apply f_equal4; try reflexivity. cbn. f_equal. f_equal. f_equal.
  apply m2_ext; [apply madd_mat, m2_mat|..]; rewrite (el_madd _ _ 2 2) by (try apply m2_mat; lia); cbn; lra.
Qed.
Lemma c_best : best_rank 2 2 1 cX (m2 0 0 2 0).
Proof.
  intros P Q HP HQ. apply Rnle. change (@nsub Rnum) with Rminus. change (@n0 Rnum) with 0%R.
  assert (HM : is_mat (mmul P Q) 2 2) by (eapply mmul_mat; eauto).
  assert (E : forall i j, i < 2 -> j < 2 -> el (mmul P Q) i j = (el P i 0 * el Q 0 j)%R).
  { intros i j Hi Hj. rewrite (el_mmul _ _ 2 1 2) by auto. cbn. ring. }
  assert (D : forall Y : tensor Rnum, is_mat Y 2 2 -> dist2 2 2 cX Y = ((0 - el Y 0 0) * (0 - el Y 0 0) + (1 - el Y 0 1) * (1 - el Y 0 1) + (2 - el Y 1 0) * (2 - el Y 1 0) + (0 - el Y 1 1) * (0 - el Y 1 1))%R).
  { intros Y HY. unfold dist2, minner. cbn -[el msub]. rewrite !(el_msub _ _ 2 2) by (try apply m2_mat; lia). cbn -[el]. change (el cX 0 0) with 0%R. change (el cX 0 1) with 1%R. change (el cX 1 0) with 2%R. change (el cX 1 1) with 0%R. ring. }
  rewrite (D _ HM), (D _ (m2_mat _ _ _ _)), !E by lia. 
  change (el (m2 0 0 2 0) 0 0) with 0%R. change (el (m2 0 0 2 0) 0 1) with 0%R. change (el (m2 0 0 2 0) 1 0) with 2%R. change (el (m2 0 0 2 0) 1 1) with 0%R.
  set (a := (el P 0 0 * el Q 0 0)%R). set (b := (el P 0 0 * el Q 0 1)%R). set (c := (el P 1 0 * el Q 0 0)%R). set (d := (el P 1 0 * el Q 0 1)%R).
  assert (Hd : (a * d = b * c)%R) by (unfold a, b, c, d; ring). clearbody a b c d.
  assert (H1 := Rle_0_sqr (a - d)). assert (H2 := Rle_0_sqr (a + d)). unfold Rsqr in *.
  destruct (Rle_dec 0 b).
  - assert (H0 := Rle_0_sqr (b + c - 2)). unfold Rsqr in *. lra.
  - assert (H0 := Rle_0_sqr (c - b - 2)). unfold Rsqr in *. lra.
Qed.
Lemma acts_cons {N : num} chol tri trunc k (lambda : N) V R a acts st :
  (let n := act_mode a in let Sm := als_lhs lambda (rW st) R n in
    match a with
    | Snap _ => True
    | Full _ => chol_exact chol tri Sm R
    | LowRank _ => chol_exact chol tri Sm R /\
        let X := tri (msub (mttkrp V (rW st) n R) (mmul (fac (rRef st) n) Sm)) (chol Sm) true false true in
        let '(U, s, VT) := trunc (rCnt st) X k in best_rank (nth n (lens V) 0%nat) R k X (usv k U s VT)
    end) ->
  acts_exact chol tri trunc k lambda V R acts (lr_act (chol_solve chol tri) (lr_inc trunc chol tri k) lambda V R st a) ->
  acts_exact chol tri trunc k lambda V R (a :: acts) st.
Proof.
  intros H1 H2 l x b E. destruct l as [|y l].
  - injection E as <- <-. exact H1.
  - injection E as <- E. exact (H2 l x b E).
Qed.
Lemma d_exact1 : chol_exact (cholesky dLA) (solve_tri dLA) cI 2. Proof. apply d_exact; lra. Qed.
Lemma d_exact2 : chol_exact (cholesky dLA) (solve_tri dLA) (m2 5 0 0 2) 2. Proof. apply d_exact; lra. Qed.
Definition cacts := lr_acts (chol_solve (cholesky dLA) (solve_tri dLA)) cinc (0%R : Rnum) cV 2.
Definition cex := acts_exact (cholesky dLA) (solve_tri dLA) (trunc_of (svd dLA) (qr_q dLA) (rnd dLA) false) 1 (0%R : Rnum) cV 2.
Lemma c_walk G : 
  rW (cacts (ml_schedule 3 2) (mkLR [cI; cI; cI] G (repeat tnil 3) 0)) = [cI; cI; cC] /\
  rW (cacts (ml_schedule 3 3) (mkLR [cI; cI; cI] G (repeat tnil 3) 0)) = [cI; cI; m2 1 0 2 1] /\
  cex (ml_schedule 3 3) (mkLR [cI; cI; cI] G (repeat tnil 3) 0).
Proof.
  change (ml_schedule 3 2) with [Snap 2; Full 0; Full 1; Snap 1; Full 2; Full 0].
  change (ml_schedule 3 3) with [Snap 2; Full 0; Full 1; Snap 1; Full 2; Full 0; Snap 0; Full 1; LowRank 2].
  unfold cacts, lr_acts. change (lr_act (chol_solve (cholesky dLA) (solve_tri dLA)) cinc (0%R : Rnum) cV 2) with cact. cbn [fold_left].
  set (st0 := mkLR [cI; cI; cI] G (repeat tnil 3) 0).
  assert (E0 : cact st0 (Snap 2) = mkLR [cI; cI; cI] G [tnil; tnil; cI] 0) by reflexivity. rewrite E0.
  set (r1 := [tnil; tnil; cI]) in *.
  destruct (act_I 0 r1 0 G) as [G1 E1]; [lia|]. rewrite E1.
  destruct (act_I 1 r1 0 G1) as [G2 E2]; [lia|]. rewrite E2.
  assert (E3 : cact (mkLR [cI; cI; cI] G2 r1 0) (Snap 1) = mkLR [cI; cI; cI] G2 [tnil; cI; cI] 0) by reflexivity. rewrite E3.
  set (r2 := [tnil; cI; cI]) in *.
  destruct (act_2 r2 0 G2) as [G3 E4]. rewrite E4.
  destruct (act_C 0 r2 0 G3) as [G4 E5]; [lia|]. rewrite E5.
  assert (E6 : cact (mkLR [cI; cI; cC] G4 r2 0) (Snap 0) = mkLR [cI; cI; cC] G4 [cI; cI; cI] 0) by reflexivity. rewrite E6.
  destruct (act_C 1 [cI; cI; cI] 0 G4) as [G5 E7]; [lia|]. rewrite E7.
  destruct (act_low [cI; cI; cI] 0 G5 eq_refl) as [G6 E8]. rewrite E8.
  split; [reflexivity|]. split; [reflexivity|].
  unfold cex. unfold cact, cinc in *.
  apply acts_cons; [exact I|]. rewrite E0.
  apply acts_cons; [cbn [act_mode rW]; cbv zeta; rewrite c_s0; exact d_exact1|]. rewrite E1.
  apply acts_cons; [cbn [act_mode rW]; cbv zeta; rewrite c_s1; exact d_exact1|]. rewrite E2.
  apply acts_cons; [exact I|]. rewrite E3.
  apply acts_cons; [cbn [act_mode rW]; cbv zeta; rewrite c_s2; exact d_exact1|]. rewrite E4.
  apply acts_cons; [cbn [act_mode rW]; cbv zeta; rewrite c_s3; exact d_exact2|]. rewrite E5.
  apply acts_cons; [exact I|]. rewrite E6.
  apply acts_cons; [cbn [act_mode rW]; cbv zeta; rewrite c_s4; exact d_exact2|]. rewrite E7.
  apply acts_cons; [|intros l x b E; destruct l; discriminate].
  cbn [act_mode rW rRef rCnt]. cbv zeta. rewrite c_s2, c_m2. split; [exact d_exact1|]. change (fac [cI; cI; cI] 2) with cI. rewrite cX_eq.
  cbn [trunc_of]. assert (H := c_usv). destruct (svd dLA cX 1) as [[U s] VT]. rewrite H. exact c_best.
Qed.
Lemma c_objective (W : list (tensor Rnum)) : objective (0%R : Rnum) cV W 2 = residual2 cV W 2.
Proof. unfold objective. cbn [nadd nmul Rnum]. rewrite Rmult_0_l, Rplus_0_r. reflexivity. Qed.
Lemma c_res1 : residual2 cV [cI; cI; cC] 2 = 0%R. Proof. unfold residual2, cp_at. cbn. lra. Qed.
Lemma c_res2 : residual2 cV [cI; cI; m2 1 0 2 1] 2 = 1%R. Proof. unfold residual2, cp_at. cbn. lra. Qed.
(** the multi-sweep low-rank step is relative to a reference taken one sweep before the step, not to the factor it replaces;
    even when every solve is exact and every truncation is a best one, the third step takes the residual from 0 to 1 *)
Theorem C56_multi_sweep_low_rank_may_increase :
  exists (LA : lapack Rnum) (V : tensor Rnum) (W G : list (tensor Rnum)) (S0 : tensor Rnum) (regul : tensor Rnum),
  tri_shaped (cholesky LA) (solve_tri LA) /\ low_shaped (svd LA) (qr_q LA) (rnd LA) /\
  order V = 3 /\ factors_ok V W 2 /\ mats_ok V G 2 /\ lens S0 = [2; 2] /\ mk_regul 2 (0%R : Rnum) = Ok regul /\
  acts_exact (cholesky LA) (solve_tri LA) (trunc_of (svd LA) (qr_q LA) (rnd LA) false) 1 (0%R : Rnum) V 2 (ml_schedule 3 3) (mkLR W G (repeat tnil 3) 0) /\
  exists s0 q s q' s', ml_new 3 (mkOpt W G S0) = Ok s0 /\
    steps 2 (ml_step LA 3 1 false V regul) s0 = Ok (q, s) /\ steps 3 (ml_step LA 3 1 false V regul) s0 = Ok (q', s') /\
    objective (0%R : Rnum) V (oW (mss (mlb s))) 2 = 0%R /\ objective (0%R : Rnum) V (oW (mss (mlb s'))) 2 = 1%R.
Proof.
  set (G := [cI; cI; cI]).
  assert (HW : factors_ok cV G 2).
  { split; [reflexivity|]. split; [reflexivity|]. intros m Hm. destruct m as [|[|[|m]]]; [exact (m2_mat 1 0 0 1)..|cbn in Hm; lia]. }
  assert (HG : mats_ok cV G 2) by (destruct HW as (_ & H1 & H2); split; auto).
  assert (Er := mk_regul_ok Rnum_ring 2 (0%R : Rnum)). set (regul := mscal _ _) in Er. clearbody regul.
  exists dLA, cV, G, G, cI, regul.
  split; [exact dLA_tri|]. split; [exact dLA_low|]. split; [reflexivity|]. split; [exact HW|]. split; [exact HG|]. split; [reflexivity|]. split; [exact Er|].
  destruct (c_walk G) as (H1 & H2 & H3). split; [exact H3|].
  assert (Hk : forall n, n < order cV -> 1 <= nth n (lens cV) 0) by (clear; intros n Hn; destruct n as [|[|[|n]]]; cbn in *; lia).
  assert (Ho : 3 <= order cV <= 31) by (clear; cbn; lia).
  destruct (C23_multi_sweep_low_rank_exact Rnum Rnum_ring dLA cV G G cI 2 (0%R : Rnum) regul false 3 1 2 dLA_tri dLA_low Ho ltac:(clear; cbn; lia) ltac:(clear; lia) Hk HW HG eq_refl Er) as (s0 & q & s & E0 & E1 & _ & E2 & _).
  destruct (C23_multi_sweep_low_rank_exact Rnum Rnum_ring dLA cV G G cI 2 (0%R : Rnum) regul false 3 1 3 dLA_tri dLA_low Ho ltac:(clear; cbn; lia) ltac:(clear; lia) Hk HW HG eq_refl Er) as (s0' & q' & s' & E0' & E1' & _ & E2' & _).
  rewrite E0 in E0'. injection E0' as <-. exists s0, q, s, q', s'. split; [exact E0|]. split; [exact E1|]. split; [exact E1'|].
  change (order cV) with 3 in E2, E2'. unfold cacts, cinc in H1, H2. fold G in H1, H2. rewrite E2, E2'. 
  rewrite H1, H2, !c_objective. split; [exact c_res1|exact c_res2].
Qed.
Print Assumptions C56_multi_sweep_low_rank_may_increase.
