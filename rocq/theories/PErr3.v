(** Pairwise-perturbation sweeps on a tensor with one entry, rank 1 *)
From Coq Require Import List ZArith Lia Bool Arith Reals Lra.
From Verif Require Import Base Num NumR Tensor Spec Spec2 Spec7 Spec12 Spec18 Spec20 MCommon MCP PBase PTensor PSum PMttkrp PPart PMat PMatAlg PResid PGrad PRank PNormalize PALS
  PMono PMono2 PTree PDT PDTSweep PDrivers PPP PPPSweep PPPDriver PDriverRef PConv PConv2 PPPMulti PErr PErr2 PropConv3.
Import ListNotations.
Local Open Scope R_scope.
Local Notation RL := Rnum_ring.
Local Notation bs := (bigsum (N:=Rnum)).
Local Notation bp := (bigprod (N:=Rnum)).

Definition one_by_one (x : R) : tensor Rnum := mkT [1%nat; 1%nat] [x : Rnum].
Definition single (v : R) : tensor Rnum := mkT [1%nat; 1%nat; 1%nat; 1%nat] [v : Rnum].
Definition four (x y z t : R) : list (tensor Rnum) := [one_by_one x; one_by_one y; one_by_one z; one_by_one t].
Lemma mat1 x : is_mat (one_by_one x) 1 1.
Proof. split; reflexivity. Qed.
Lemma el1 x : el (one_by_one x) 0 0 = x.
Proof. reflexivity. Qed.
Lemma mat1_eq (A : tensor Rnum) : is_mat A 1 1 -> A = one_by_one (el A 0 0).
Proof. intros HA. apply (mat_ext _ _ 1 1); auto using mat1. intros i j Hi Hj. assert (i = 0%nat) by lia. assert (j = 0%nat) by lia. subst. reflexivity. Qed.
Lemma norm1 x : 0 <= x -> norm2 (one_by_one x) = x.
Proof.
  intros Hx. change (norm2 (one_by_one x)) with (sqrt (x * x + 0)). rewrite Rplus_0_r. apply sqrt_square. auto.
Qed.
Lemma norm1_abs x : norm2 (one_by_one x) = Rabs x.
Proof. change (norm2 (one_by_one x)) with (sqrt (x * x + 0)). rewrite Rplus_0_r. apply sqrt_Rsqr_abs. Qed.
Lemma scal1 a x : mscal (N:=Rnum) a (one_by_one x) = one_by_one (a * x).
Proof. reflexivity. Qed.
Lemma add1 a x : madd (one_by_one a) (one_by_one x) = one_by_one (a + x).
Proof. reflexivity. Qed.
Lemma sub1 a x : msub (one_by_one a) (one_by_one x) = one_by_one (a - x).
Proof. reflexivity. Qed.
Lemma four_ok v x y z t : factors_ok (single v) (four x y z t) 1.
Proof. split; [reflexivity|]. split; [reflexivity|]. intros m Hm. cbn in Hm. do 4 (destruct m as [|m]; [apply mat1|]). lia. Qed.
Lemma four_mats v x y z t : mats_ok (single v) (four x y z t) 1.
Proof. split; [reflexivity|]. intros m Hm. cbn in Hm. do 4 (destruct m as [|m]; [apply mat1|]). lia. Qed.
Lemma fac_four x y z t : fac (four x y z t) 0 = one_by_one x /\ fac (four x y z t) 1 = one_by_one y /\ fac (four x y z t) 2 = one_by_one z /\ fac (four x y z t) 3 = one_by_one t.
Proof. repeat split. Qed.

(** the sweep solver with lambda = 0 *)
Lemma mt v W n : (n < 4)%nat -> mttkrp (single v) W n 1 = one_by_one (v * bp (others n 4) (fun m => el (fac W m) 0 0) + 0).
Proof. intros Hn. do 4 (destruct n as [|n]; [reflexivity|]). lia. Qed.
Lemma ppm v W0 D n : (n < 4)%nat ->
  pp_mttkrp (single v) W0 D n 1 = one_by_one ((v * bp (others n 4) (fun m => el (fac W0 m) 0 0) + 0)
    + bs (others n 4) (fun q => v * bp (others n 4) (fun m => el (fac (setf W0 q (fac D q)) m) 0 0) + 0)).
Proof. intros Hn. do 4 (destruct n as [|n]; [reflexivity|]). lia. Qed.
Lemma lhs1 x y z t n : (n < 4)%nat -> als_lhs (0 : Rnum) (four x y z t) 1 n = one_by_one (bp (others n 4) (fun m => el (fac (four x y z t) m) 0 0 * el (fac (four x y z t) m) 0 0 + 0) + 0 * 1).
Proof. intros Hn. do 4 (destruct n as [|n]; [reflexivity|]). lia. Qed.
Definition ones : list (tensor Rnum) := four 1 1 1 1.
Notation solve1 := (pinv_solve (svd LA1) 1).
Lemma single_dims n : (n < order (single 1))%nat -> (0 < nth n (lens (single 1)) 0)%nat.
Proof. intros H. cbn in H. do 4 (destruct n as [|n]; [cbn; lia|]). lia. Qed.
Lemma pinv_1 m s : 0 < s -> solve1 (one_by_one m) (one_by_one s) = one_by_one (m / s).
Proof.
  intros Hs. rewrite (mat1_eq (solve1 (one_by_one m) (one_by_one s))).
  - f_equal. rewrite (pinv1 (single 1) single_dims _ _ 1%nat); auto using mat1.
  - apply (SVD_solve_pinv RL LA1 (one_by_one m) (one_by_one 0) (one_by_one s) 1 1 LA1_svd_shaped); auto using mat1.
Qed.
Lemma sq_pos3 a b c : a * b * c <> 0 -> 0 < (a * b * c) * (a * b * c).
Proof. intros H. destruct (Rtotal_order (a * b * c) 0) as [L|[E|L]]; [|contradiction|apply Rmult_lt_0_compat; auto]. replace (a * b * c * (a * b * c)) with ((- (a * b * c)) * (- (a * b * c))) by ring. apply Rmult_lt_0_compat; lra. Qed.
Lemma step1 m s X : s <> 0 -> m / s = X -> 1 + 1 * (m / s - 1) = X.
Proof. intros _ <-. ring. Qed.
Lemma upd0 v x y z t d0 d1 d2 d3 : y * z * t <> 0 -> let X := v * (1 + d1 + d2 + d3) / ((y * z * t) * (y * z * t)) in
  pp_update solve1 (0 : Rnum) (1 : Rnum) (single v) ones 1 (four x y z t, four d0 d1 d2 d3) 0 = (four X y z t, four (X - 1) d1 d2 d3).
Proof.
  intros Hn X. unfold pp_update, pp_step. rewrite ppm, lhs1 by lia.
  set (M := (_ + bs _ _)). set (S := (_ + 0 * 1)).
  assert (ES : S = (y * z * t) * (y * z * t)) by (unfold S; cbn; ring). assert (EM : M = v * (1 + d1 + d2 + d3)) by (unfold M; cbn; ring).
  clearbody M S. subst M S. rewrite pinv_1 by (apply sq_pos3; auto). fold X. change (fac ones 0) with (one_by_one 1). rewrite sub1, scal1, add1.
  replace (1 + 1 * (X - 1)) with X by ring. replace (1 * (X - 1)) with (X - 1) by ring. reflexivity.
Qed.
Lemma upd1 v x y z t d0 d1 d2 d3 : x * z * t <> 0 -> let X := v * (1 + d0 + d2 + d3) / ((x * z * t) * (x * z * t)) in
  pp_update solve1 (0 : Rnum) (1 : Rnum) (single v) ones 1 (four x y z t, four d0 d1 d2 d3) 1 = (four x X z t, four d0 (X - 1) d2 d3).
Proof.
  intros Hn X. unfold pp_update, pp_step. rewrite ppm, lhs1 by lia.
  set (M := (_ + bs _ _)). set (S := (_ + 0 * 1)).
  assert (ES : S = (x * z * t) * (x * z * t)) by (unfold S; cbn; ring). assert (EM : M = v * (1 + d0 + d2 + d3)) by (unfold M; cbn; ring).
  clearbody M S. subst M S. rewrite pinv_1 by (apply sq_pos3; auto). fold X. change (fac ones 1) with (one_by_one 1). rewrite sub1, scal1, add1.
  replace (1 + 1 * (X - 1)) with X by ring. replace (1 * (X - 1)) with (X - 1) by ring. reflexivity.
Qed.
Lemma upd2 v x y z t d0 d1 d2 d3 : x * y * t <> 0 -> let X := v * (1 + d0 + d1 + d3) / ((x * y * t) * (x * y * t)) in
  pp_update solve1 (0 : Rnum) (1 : Rnum) (single v) ones 1 (four x y z t, four d0 d1 d2 d3) 2 = (four x y X t, four d0 d1 (X - 1) d3).
Proof.
  intros Hn X. unfold pp_update, pp_step. rewrite ppm, lhs1 by lia.
  set (M := (_ + bs _ _)). set (S := (_ + 0 * 1)).
  assert (ES : S = (x * y * t) * (x * y * t)) by (unfold S; cbn; ring). assert (EM : M = v * (1 + d0 + d1 + d3)) by (unfold M; cbn; ring).
  clearbody M S. subst M S. rewrite pinv_1 by (apply sq_pos3; auto). fold X. change (fac ones 2) with (one_by_one 1). rewrite sub1, scal1, add1.
  replace (1 + 1 * (X - 1)) with X by ring. replace (1 * (X - 1)) with (X - 1) by ring. reflexivity.
Qed.
Lemma upd3 v x y z t d0 d1 d2 d3 : x * y * z <> 0 -> let X := v * (1 + d0 + d1 + d2) / ((x * y * z) * (x * y * z)) in
  pp_update solve1 (0 : Rnum) (1 : Rnum) (single v) ones 1 (four x y z t, four d0 d1 d2 d3) 3 = (four x y z X, four d0 d1 d2 (X - 1)).
Proof.
  intros Hn X. unfold pp_update, pp_step. rewrite ppm, lhs1 by lia.
  set (M := (_ + bs _ _)). set (S := (_ + 0 * 1)).
  assert (ES : S = (x * y * z) * (x * y * z)) by (unfold S; cbn; ring). assert (EM : M = v * (1 + d0 + d1 + d2)) by (unfold M; cbn; ring).
  clearbody M S. subst M S. rewrite pinv_1 by (apply sq_pos3; auto). fold X. change (fac ones 3) with (one_by_one 1). rewrite sub1, scal1, add1.
  replace (1 + 1 * (X - 1)) with X by ring. replace (1 * (X - 1)) with (X - 1) by ring. reflexivity.
Qed.
Lemma rescaled_four x y z t g : 0 < x -> 0 < y -> 0 < z -> 0 < t -> 0 < g -> g ^ 4 = x * y * z * t -> rescaled (four x y z t) = four g g g g.
Proof.
  intros Hx Hy Hz Ht Hg E. unfold rescaled, four. cbn [map length].
  assert (P : bp [one_by_one x; one_by_one y; one_by_one z; one_by_one t] norm2 = g ^ 4).
  { rewrite !bp_cons. change (bp [] ?f) with 1. rewrite !norm1 by lra. rewrite E. rring. }
  rewrite P. change (nroot (n:=Rnum)) with Rroot. rewrite !norm1 by lra. change (ndiv (n:=Rnum)) with Rdiv. rewrite !scal1.
  assert (G : Rroot 4 (g ^ 4) = g).
  { apply Rle_antisym; apply (pow_le_inv _ _ 4); try apply Rroot_nonneg; try lra; try lia; rewrite Rroot_pow; try lra; try lia; apply pow_le; lra. }
  rewrite G. repeat f_equal; field; lra.
Qed.
Section G.
Context (g : R) (Hg : 0 < g).
Let v := g ^ 4.
Let st0 := (ones, four 0 0 0 0).
Lemma ppos : 0 < v.
Proof. unfold v. apply pow_lt. auto. Qed.
Lemma nz2 a b : a <> 0 -> b <> 0 -> a * b <> 0.
Proof. intros H1 H2 H. apply Rmult_integral in H. tauto. Qed.
Lemma first_upto : pp_upto solve1 (0 : Rnum) (1 : Rnum) (single v) ones 1 1 st0 = (four v 1 1 1, four (v - 1) 0 0 0) /\
  pp_upto solve1 (0 : Rnum) (1 : Rnum) (single v) ones 1 4 st0 = (four v 1 1 1, four (v - 1) 0 0 0).
Proof.
  pose proof ppos as V0. unfold pp_upto. cbn [seq fold_left]. change st0 with (four 1 1 1 1, four 0 0 0 0).
  rewrite upd0 by lra. replace (v * (1 + 0 + 0 + 0) / (1 * 1 * 1 * (1 * 1 * 1))) with v by field. split; [reflexivity|].
  rewrite upd1 by lra. replace (v * (1 + (v - 1) + 0 + 0) / (v * 1 * 1 * (v * 1 * 1))) with 1 by (field; lra).
  rewrite upd2 by lra. replace (v * (1 + (v - 1) + (1 - 1) + 0) / (v * 1 * 1 * (v * 1 * 1))) with 1 by (field; lra).
  rewrite upd3 by lra. replace (v * (1 + (v - 1) + (1 - 1) + (1 - 1)) / (v * 1 * 1 * (v * 1 * 1))) with 1 by (field; lra).
  replace (1 - 1) with 0 by ring. reflexivity.
Qed.
Lemma first_sweep : pp_sweep solve1 (0 : Rnum) (1 : Rnum) (single v) ones 1 st0 = (four g g g g, four (v - 1) 0 0 0).
Proof.
  pose proof ppos. unfold pp_sweep. change (order (single v)) with 4%nat. rewrite (proj2 first_upto). rewrite (rescaled_four _ _ _ _ g); auto; try lra.
  unfold v. ring.
Qed.
Let q := g ^ 4 - g ^ 2 + 1.
Lemma q_pos : 0 < q.
Proof.
  unfold q. replace (g ^ 4 - g ^ 2 + 1) with ((g * g - / 2) * (g * g - / 2) + 3 / 4) by field.
  assert (0 <= (g * g - / 2) * (g * g - / 2)) by apply Rle_0_sqr. lra.
Qed.
Let X3 := g ^ 4 * (g ^ 4 - 1 + / (g * g)) / (q * q).
Lemma second_upto : pp_upto solve1 (0 : Rnum) (1 : Rnum) (single v) ones 1 4 (four g g g g, four (v - 1) 0 0 0)
  = (four (/ (g * g)) (g * g) q X3, four (/ (g * g) - 1) (g * g - 1) (q - 1) (X3 - 1)).
Proof.
  pose proof ppos as V0. pose proof q_pos as Q0. unfold pp_upto. cbn [seq fold_left].
  assert (G1 : g <> 0) by lra. assert (G2 : / (g * g) <> 0) by (apply Rinv_neq_0_compat; apply nz2; auto). assert (Q1 : q <> 0) by lra.
  rewrite upd0 by (repeat apply nz2; auto).
  replace (v * (1 + 0 + 0 + 0) / (g * g * g * (g * g * g))) with (/ (g * g)) by (unfold v; field; auto).
  rewrite upd1 by (repeat apply nz2; auto).
  replace (v * (1 + (/ (g * g) - 1) + 0 + 0) / (/ (g * g) * g * g * (/ (g * g) * g * g))) with (g * g) by (unfold v; field; auto).
  rewrite upd2 by (repeat apply nz2; auto).
  replace (v * (1 + (/ (g * g) - 1) + (g * g - 1) + 0) / (/ (g * g) * (g * g) * g * (/ (g * g) * (g * g) * g))) with q by (unfold v, q; field; auto).
  rewrite upd3 by (repeat apply nz2; auto).
  replace (v * (1 + (/ (g * g) - 1) + (g * g - 1) + (q - 1)) / (/ (g * g) * (g * g) * q * (/ (g * g) * (g * g) * q))) with X3.
  - reflexivity.
  - unfold X3. assert (E : 1 + (/ (g * g) - 1) + (g * g - 1) + (q - 1) = g ^ 4 - 1 + / (g * g)) by (unfold q; ring). rewrite E. unfold v.
    replace (/ (g * g) * (g * g) * q) with q by (field; auto). reflexivity.
Qed.
Lemma X3_pos : 0 < X3.
Proof.
  pose proof q_pos as Q0. unfold X3. apply Rmult_lt_0_compat; [|apply Rinv_0_lt_compat, Rmult_lt_0_compat; auto]. apply Rmult_lt_0_compat; [apply pow_lt; auto|].
  assert (I0 : 0 < / (g * g)) by (apply Rinv_0_lt_compat, Rmult_lt_0_compat; auto). assert (V0 : 0 < g ^ 4) by apply ppos.
  destruct (Rle_lt_dec 1 g) as [L|L]; [assert (1 <= g ^ 4) by (apply pow_R1_Rle; lra); lra|].
  assert (GG : g * g < 1 * 1) by (apply Rmult_le_0_lt_compat; lra). assert (1 < / (g * g)); [|lra].
  rewrite <- Rinv_1. apply Rinv_lt_contravar; [rewrite Rmult_1_r; apply Rmult_lt_0_compat; auto|lra].
Qed.
Let prod := / (g * g) * (g * g) * q * X3.
Lemma prod_pos : 0 < prod.
Proof.
  unfold prod. assert (I0 : 0 < g * g) by (apply Rmult_lt_0_compat; auto). apply Rmult_lt_0_compat; [|apply X3_pos]. apply Rmult_lt_0_compat; [|apply q_pos]. apply Rmult_lt_0_compat; [apply Rinv_0_lt_compat|]; auto.
Qed.
Lemma second_sweep : pp_sweep solve1 (0 : Rnum) (1 : Rnum) (single v) ones 1 (four g g g g, four (v - 1) 0 0 0)
  = (four (Rroot 4 prod) (Rroot 4 prod) (Rroot 4 prod) (Rroot 4 prod), four (/ (g * g) - 1) (g * g - 1) (q - 1) (X3 - 1)).
Proof.
  unfold pp_sweep. change (order (single v)) with 4%nat. rewrite second_upto. pose proof prod_pos as P0. pose proof q_pos. pose proof X3_pos.
  assert (I0 : 0 < g * g) by (apply Rmult_lt_0_compat; auto). assert (0 < / (g * g)) by (apply Rinv_0_lt_compat; auto).
  rewrite (rescaled_four _ _ _ _ (Rroot 4 prod)); auto.
  - unfold Rroot. destruct (Rlt_dec 0 prod); [apply exp_pos|contradiction].
  - rewrite Rroot_pow; [reflexivity|lia|lra].
Qed.
(** the product of the factors after the second sweep differs from v *)
Lemma product_off : g <> 1 -> prod <> v.
Proof.
  unfold prod. intros G E. pose proof q_pos as Q0. assert (g <> 0) by lra.
  assert (K : / (g * g) * (g * g) * q * X3 = g ^ 4 * (g ^ 4 - 1 + / (g * g)) / q) by (unfold X3; field; lra).
  rewrite K in E. clear K. assert (E2 : g ^ 4 * (g ^ 4 - 1 + / (g * g)) = v * q) by (rewrite <- E; field; lra). clear E.
  assert (E3 : g ^ 4 - 1 + / (g * g) = q) by (apply (Rmult_eq_reg_l v); [exact E2|pose proof ppos; lra]). clear E2.
  assert (E4 : g * g + / (g * g) - 2 = 0) by (unfold q in E3; lra).
  assert (E5 : (g * g - 1) * (g * g - 1) = 0).
  { replace ((g * g - 1) * (g * g - 1)) with ((g * g) * (g * g + / (g * g) - 2)) by (field; auto). rewrite E4. ring. }
  apply Rmult_integral in E5. assert (E6 : (g - 1) * (g + 1) = 0) by (destruct E5; lra). apply Rmult_integral in E6. lra.
Qed.
Lemma resid_four x y z t : resid_norm (single v) (four x y z t) 1 = Rabs (v - x * y * z * t).
Proof.
  unfold resid_norm. set (T := msub _ _). assert (ET : T = single (v - (x * (y * (z * (t * 1))) + 0))) by reflexivity. rewrite ET.
  change (norm2 (single (v - (x * (y * (z * (t * 1))) + 0)))) with (sqrt ((v - (x * (y * (z * (t * 1))) + 0)) * (v - (x * (y * (z * (t * 1))) + 0)) + 0)).
  rewrite Rplus_0_r. replace (x * (y * (z * (t * 1))) + 0) with (x * y * z * t) by ring. apply sqrt_Rsqr_abs.
Qed.
Lemma first_fit : resid_norm (single v) (four g g g g) 1 = 0.
Proof. rewrite resid_four. replace (v - g * g * g * g) with 0 by (unfold v; ring). apply Rabs_R0. Qed.
Lemma second_misfit : g <> 1 -> resid_norm (single v) (four (Rroot 4 prod) (Rroot 4 prod) (Rroot 4 prod) (Rroot 4 prod)) 1 <> 0.
Proof.
  intros G. rewrite resid_four. pose proof prod_pos as P0. assert (E : Rroot 4 prod ^ 4 = prod) by (apply Rroot_pow; [lia|lra]).
  replace (Rroot 4 prod * Rroot 4 prod * Rroot 4 prod * Rroot 4 prod) with (Rroot 4 prod ^ 4) by ring. rewrite E. apply Rabs_no_R0. pose proof (product_off G). lra.
Qed.
End G.
