(** Normalize in rounded arithmetic: the norms are equalised and the represented tensor is preserved, up to rounding *)
From Coq Require Import List ZArith Reals Lra Lia Bool Arith Permutation.
From Verif Require Import Base Num NumR Tensor Spec Spec27 Spec28 Spec29 MCommon MCP PBase PTensor PSum PMttkrp PMat PMono PALS PDrivers PConv PErr PRnd PRndDT2 PRndNorm PRndGrad PRndGrad2 PRndALS PRndALS2.
Import ListNotations.
Local Open Scope R_scope.

Lemma Rabs_le_inv x a : Rabs x <= a -> - a <= x <= a.
Proof. intros H. pose proof (Rle_abs x). pose proof (Rle_abs (- x)) as K. rewrite Rabs_Ropp in K. lra. Qed.

Section Rnd.
Context (rnd : R -> R) (u : R) (RE : rel_err rnd u).
Let Hu : 0 <= u := proj1 RE.
Notation N := (Fl rnd).

Lemma gam_ge k : (1 <= k)%nat -> u <= gam u k.
Proof.
  intros H. destruct k as [|k]; [lia|]. unfold gam. cbn [pow]. pose proof (pow1u_ge1 u k Hu).
  assert (u * 1 <= u * (1 + u) ^ k) by (apply Rmult_le_compat_l; auto). lra.
Qed.
Lemma rnd_nonneg x : u <= 1 -> 0 <= x -> 0 <= rnd x.
Proof.
  intros H1 Hx. pose proof (proj2 RE x) as H. rewrite (Rabs_pos_eq x Hx) in H.
  assert (u * x <= 1 * x) by (apply Rmult_le_compat_r; auto).
  pose proof (Rle_abs (- (rnd x - x))) as K. rewrite Rabs_Ropp in K. lra.
Qed.
Lemma rel_pos k x y : 0 <= y -> Rabs (x - y) <= gam u k * y -> rel u k x y y.
Proof. intros Hy H. split; [exact H|]. rewrite Rabs_pos_eq; lra. Qed.
Lemma gam_add k l : gam u (k + l) = gam u k * (1 + gam u l) + gam u l.
Proof. unfold gam. rewrite pow_add. ring. Qed.
(** approximating a multiple of y, the multiplier being close to one *)
Lemma rel_near k l x t y Y : rel u l t 1 1 -> rel u k x (t * y) (t * Y) -> 0 <= Y -> Rabs y <= Y -> rel u (k + l) x y Y.
Proof.
  intros [Ht _] [Hx _] HY Hy. split; [|exact Hy]. rewrite Rmult_1_r in Ht.
  pose proof (Rabs_triang (x - t * y) ((t - 1) * y)) as T. replace (x - t * y + (t - 1) * y) with (x - y) in T by ring.
  assert (H1 : Rabs ((t - 1) * y) <= gam u l * Y) by (rewrite Rabs_mult; apply Rmult_le_compat; auto using Rabs_pos).
  assert (H2 : t <= 1 + gam u l) by (pose proof (Rle_abs (t - 1)); lra).
  assert (H3 : gam u k * (t * Y) <= gam u k * ((1 + gam u l) * Y)).
  { apply Rmult_le_compat_l; [apply gam_pos; auto|]. apply Rmult_le_compat_r; auto. }
  rewrite gam_add. lra.
Qed.

Context (W : list (tensor N)) (rk : nat).
Let o := length W.
Hypothesis Ho : (1 <= o)%nat.
Hypothesis HW : forall m, (m < o)%nat -> exists r, is_mat (fac W m) r rk.
Let nu (m : nat) : R := @norm2 Rnum (reals (fac W m)).
Let kn (m : nat) : nat := (length (data (fac W m)) + 2)%nat.
Hypothesis Hnz : forall m, (m < o)%nat -> nu m <> 0.
Hypothesis Hsm : forall m, (m < o)%nat -> gam u (kn m) < 1.
Let nc (m : nat) : R := @norm2 N (fac W m).

Lemma u_lt1 : u <= 1.
Proof. pose proof (Hsm 0%nat ltac:(lia)). pose proof (gam_ge (kn 0%nat) ltac:(unfold kn; lia)). lra. Qed.
Lemma nu_pos m : (m < o)%nat -> 0 < nu m.
Proof. intros Hm. specialize (Hnz m Hm). assert (0 <= nu m) by apply norm2_pos. destruct H; auto. congruence. Qed.
Lemma nc_rel m : (m < o)%nat -> Rabs (nc m - nu m) <= gam u (kn m) * nu m.
Proof. intros _. apply (norm2_rounded rnd u RE). Qed.
Lemma nc_pos m : (m < o)%nat -> 0 < nc m.
Proof.
  intros Hm. pose proof (nc_rel m Hm) as H. pose proof (nu_pos m Hm) as Hp. specialize (Hsm m Hm).
  assert (gam u (kn m) * nu m < 1 * nu m) by (apply Rmult_lt_compat_r; auto).
  pose proof (Rle_abs (- (nc m - nu m))) as K. rewrite Rabs_Ropp in K. lra.
Qed.
(** the computed product of the computed norms *)
Let P : R := @norm_prod N W.
Let Pe : R := @bigprod Rnum _ (seq 0 o) nc.
Lemma prod_pos l : (forall m, In m l -> (m < o)%nat) -> 0 < @bigprod Rnum _ l nc.
Proof. induction l as [|m l IH]; intros H; cbn; [lra|]. apply Rmult_lt_0_compat; [apply nc_pos, H; left; auto|apply IH; intros; apply H; right; auto]. Qed.
Lemma P_rel : rel u o P Pe Pe /\ 0 <= P.
Proof.
  unfold P, Pe, norm_prod.
  assert (G : forall k, (k <= o)%nat -> rel u k (fold_left (fun p A => @nmul N p (@norm2 N A)) (firstn k W) n1) (@bigprod Rnum _ (seq 0 k) nc) (@bigprod Rnum _ (seq 0 k) nc) /\
     0 <= (fold_left (fun p A => @nmul N p (@norm2 N A)) (firstn k W) n1 : R)).
  { induction k as [|k IH]; intros Hk.
    - cbn. split; [|lra]. split; [rewrite Rminus_eq_0, Rabs_R0, gam_0; lra|rewrite Rabs_R1; lra].
    - destruct IH as [I1 I2]; [lia|]. rewrite (firstn_snoc_nth W k tnil) by (fold o; lia). rewrite fold_left_app. cbn [fold_left].
      rewrite seq_S, (bigprod_app Rnum_ring). cbn [plus bigprod fold_right]. cbn [nmul n1 Rnum]. rewrite Rmult_1_r.
      change (@nmul N ?a ?b) with (rnd (a * b)). fold (fac W k). fold (nc k). split.
      + apply (rel_rnd rnd u RE). pose proof (nc_pos k ltac:(lia)) as Hp.
        assert (Q : rel u 0 (nc k) (nc k) (nc k)) by (apply rel_pos; [lra|rewrite Rminus_eq_0, Rabs_R0, gam_0; lra]).
        pose proof (rel_mult u _ _ _ _ _ _ _ _ I1 Q) as K. rewrite Nat.add_0_r in K. exact K.
      + apply rnd_nonneg; [apply u_lt1|]. apply Rmult_le_pos; auto. left. apply nc_pos. lia. }
  specialize (G o (Nat.le_refl o)). unfold o in G at 2 5. rewrite firstn_all in G. exact G.
Qed.
Let g0 : R := Rroot o P.
Let g : R := rnd g0.
Lemma g0_pow : g0 ^ o = P.
Proof. apply Rroot_pow; [lia|]. apply P_rel. Qed.
Lemma g0_pos : 0 <= g0.
Proof. apply Rroot_nonneg. Qed.
Lemma g_pos : 0 <= g.
Proof. apply rnd_nonneg; [apply u_lt1|apply g0_pos]. Qed.
Lemma g_rel : rel u 1 g g0 g0.
Proof. apply (rel_rnd rnd u RE 0). apply rel_pos; [apply g0_pos|]. rewrite Rminus_eq_0, Rabs_R0, gam_0. lra. Qed.

Let coef (m : nat) : R := @norm_coef N W m.
Lemma coef_eq m : coef m = rnd (g / nc m).
Proof. reflexivity. Qed.
Lemma entry_g m (w : R) : (m < o)%nat -> rel u 3 (rnd (coef m * rnd (w * 1))) (g / nc m * w) (g / nc m * Rabs w).
Proof.
  intros Hm. rewrite Rmult_1_r. apply (rel_rnd rnd u RE 2). apply (rel_mult u 1 1).
  - rewrite coef_eq. apply (rel_rnd rnd u RE 0). apply rel_pos; [|rewrite Rminus_eq_0, Rabs_R0, gam_0; lra].
    apply Rmult_le_pos; [apply g_pos|]. left. apply Rinv_0_lt_compat, nc_pos; auto.
  - apply (rel_rnd rnd u RE 0). apply rel_refl.
Qed.
Lemma entry_g0 m (w : R) : (m < o)%nat -> rel u 4 (rnd (coef m * rnd (w * 1))) (g0 / nc m * w) (g0 / nc m * Rabs w).
Proof.
  intros Hm. rewrite Rmult_1_r. apply (rel_rnd rnd u RE 3). apply (rel_mult u 2 1).
  - rewrite coef_eq. apply (rel_rnd rnd u RE 1). unfold Rdiv. pose proof (Rinv_0_lt_compat _ (nc_pos m Hm)) as Hi.
    apply (rel_mult u 1 0); [apply g_rel|]. apply rel_pos; [lra|rewrite Rminus_eq_0, Rabs_R0, gam_0; lra].
  - apply (rel_rnd rnd u RE 0). apply rel_refl.
Qed.

Lemma rel_prod {X} (l : list X) k (f h H : X -> R) : (forall x, In x l -> rel u k (f x) (h x) (H x)) ->
  rel u (k * length l) (@bigprod Rnum _ l f) (@bigprod Rnum _ l h) (@bigprod Rnum _ l H).
Proof.
  intros E. induction l as [|a l IH]; cbn [bigprod fold_right length].
  - rewrite Nat.mul_0_r. split; [rewrite Rminus_eq_0, Rabs_R0, gam_0; cbn; lra|cbn; rewrite Rabs_R1; lra].
  - replace (k * S (length l))%nat with (k + k * length l)%nat by lia. apply (rel_mult u); [apply E; left; auto|apply IH; intros; apply E; right; auto].
Qed.
Lemma rel_sum {X} (l : list X) k (f h H : X -> R) : (forall x, In x l -> rel u k (f x) (h x) (H x)) ->
  rel u k (@bigsum Rnum _ l f) (@bigsum Rnum _ l h) (@bigsum Rnum _ l H).
Proof.
  intros E. induction l as [|a l IH]; cbn [bigsum fold_right].
  - split; cbn; rewrite ?Rminus_0_r, Rabs_R0; lra.
  - apply rel_plus; [apply E; left; auto|apply IH; intros; apply E; right; auto].
Qed.
Lemma div_near (p q G : R) : 0 < q -> Rabs (p - q) <= G * q -> Rabs (p / q - 1) <= G.
Proof.
  intros Hq H. replace (p / q - 1) with ((p - q) * / q) by (field; lra). rewrite Rabs_mult, (Rabs_pos_eq (/ q)) by (left; apply Rinv_0_lt_compat; auto).
  apply (Rmult_le_reg_r q); auto. rewrite Rmult_assoc, Rinv_l by lra. lra.
Qed.
Lemma bp_mult {X} (l : list X) (f h : X -> R) : @bigprod Rnum _ l (fun x => f x * h x) = @bigprod Rnum _ l f * @bigprod Rnum _ l h.
Proof. apply (bigprod_mul Rnum_ring). Qed.
Lemma bp_div l (a : R) : (forall m, In m l -> (m < o)%nat) -> @bigprod Rnum _ l (fun m => a / nc m) * @bigprod Rnum _ l nc = a ^ length l.
Proof.
  intros H. induction l as [|m l IH]; cbn [bigprod fold_right length pow]; [cbn; ring|].
  rewrite <- IH by (intros; apply H; right; auto). pose proof (nc_pos m ltac:(apply H; left; auto)) as Hp.
  unfold bigprod. cbn [nmul Rnum]. generalize (fold_right (fun x acc => a / nc x * acc) (@n1 Rnum) l) (fold_right (fun x acc => nc x * acc) (@n1 Rnum) l).
  intros p q. change (car Rnum) with R in *. field. lra.
Qed.

Theorem Normalize_r : exists W', Normalize W o = Ok W' /\ length W' = o /\
  (forall m, (m < o)%nat -> is_mat (fac W' m) (nrow (fac W m)) rk) /\
  (forall x, (forall m, (m < o)%nat -> (nth m x 0 < nrow (fac W m))%nat) ->
     Rabs (@cp_at Rnum (map reals W') rk x - @cp_at Rnum (map reals W) rk x) <= gam u (5 * o) * @cp_at Rnum (map absols W) rk x) /\
  0 <= g /\
  forall m, (m < o)%nat -> Rabs (@norm2 Rnum (reals (fac W' m)) - g) <= (gam u 3 + gam u (kn m)) / (1 - gam u (kn m)) * g.
Proof.
  destruct (Normalize_raw W rk HW) as (W' & E & HL & HF). fold o in E, HL, HF.
  exists W'. split; [exact E|]. split; [exact HL|].
  split; [intros m Hm; rewrite HF by auto; apply mk_mat|]. split; [|split; [apply g_pos|]].
  - intros x Hx. unfold cp_at. rewrite !map_length, HL. fold o.
    lazymatch goal with |- Rabs (?a - ?b) <= _ * ?c => enough (Q : rel u (5 * o) a b c) by apply Q end.
    apply rel_sum. intros r Hr. apply in_seq in Hr.
    destruct P_rel as [PR PP].
    assert (Pe0 : 0 < Pe) by (apply prod_pos; intros m Hm; apply in_seq in Hm; lia).
    assert (Ht : @bigprod Rnum _ (seq 0 o) (fun m => g0 / nc m) = P / Pe).
    { pose proof (bp_div (seq 0 o) g0 ltac:(intros m Hm; apply in_seq in Hm; lia)) as Q. rewrite seq_length, g0_pow in Q. fold Pe in Q.
      assert (K : forall z p q : R, 0 < q -> z * q = p -> z = p / q) by (clear; intros z p q Hq <-; field; lra). apply K; auto. }
    assert (Pn : forall l, 0 <= @bigprod Rnum nat l (fun m => @el Rnum (fac (map absols W) m) (nth m x 0%nat) r)).
    { clear - rnd. induction l as [|m l IH]; cbn; [lra|]. apply Rmult_le_pos; auto. rewrite fac_map by reflexivity. unfold el. rewrite absols_at. apply Rabs_pos. }
    replace (5 * o)%nat with (4 * o + o)%nat by lia.
    apply (rel_near _ _ _ (P / Pe)).
    + split; [|rewrite Rabs_R1; lra]. destruct PR as [PR _]. rewrite Rmult_1_r.
      apply div_near; auto.
    + rewrite <- Ht, <- !bp_mult. replace (4 * o)%nat with (4 * length (seq 0 o))%nat by (rewrite seq_length; auto).
      apply rel_prod. intros m Hm. apply in_seq in Hm. rewrite !fac_map by reflexivity. rewrite HF by lia.
      unfold el at 1. rewrite reals_at. fold (@el N (mk (nrow (fac W m)) rk (fun i j => @nmul N (norm_coef W m) (@nmul N (el (fac W m) i j) n1))) (nth m x 0%nat) r).
      rewrite el_mk by (try apply Hx; lia). unfold el at 2 3. rewrite absols_at, reals_at.
      change (rel u 4 (rnd (coef m * rnd (el (fac W m) (nth m x 0%nat) r * 1))) (g0 / nc m * el (fac W m) (nth m x 0%nat) r) (g0 / nc m * Rabs (el (fac W m) (nth m x 0%nat) r))).
      apply entry_g0. lia.
    + apply Pn.
    + apply abs_prod. intros m _. rewrite !fac_map by reflexivity. unfold el. rewrite absols_at, reals_at. lra.
  - intros m Hm. destruct (HW m Hm) as [rw [HE HwE]]. rewrite HF by auto. assert (En : nrow (fac W m) = rw) by (unfold nrow; rewrite HE; reflexivity).
    set (T := fac W m) in *. set (c := g / nc m).
    assert (Q : Rabs (@norm2 Rnum (reals (mk (nrow T) rk (fun i j => @nmul N (norm_coef W m) (@nmul N (el T i j) n1)))) - c * nu m) <= gam u 3 * (c * nu m)).
    { assert (Hc : 0 <= c) by (apply Rmult_le_pos; [apply g_pos|left; apply Rinv_0_lt_compat, nc_pos; auto]).
      rewrite En. assert (Enu : c * nu m = nrm (all_idx [rw; rk]) (fun x => c * Rabs (at_ T x)) /\ c * nu m = nrm (all_idx [rw; rk]) (fun x => c * at_ T x)).
      { unfold nu. fold T. rewrite norm2_nrm by exact HwE. cbn [reals lens]. rewrite HE. unfold nrm.
        assert (K : forall f : list nat -> R, c * sqrt (@bigsum Rnum _ (all_idx [rw; rk]) (fun x => f x * f x)) = sqrt (@bigsum Rnum _ (all_idx [rw; rk]) (fun x => c * f x * (c * f x)))).
        { intros f. rewrite <- (sqrt_square c Hc) at 1. rewrite <- sqrt_mult_alt by (apply Rle_0_sqr). f_equal.
          rewrite <- bs_mul_l. apply bs_ext. intros; ring. }
        split; [|apply K]. rewrite K. f_equal. apply bs_ext. intros y _. change (@at_ Rnum (reals T) y) with (@at_ N T y). set (z := @at_ N T y). clearbody z.
        change (car N) with R in *. transitivity (c * c * (z * z)); [ring|]. transitivity (c * c * (Rabs z * Rabs z)); [|ring]. f_equal.
        rewrite <- Rabs_mult. symmetry. apply Rabs_pos_eq, Rle_0_sqr. }
      destruct Enu as [En1 En2]. rewrite En1 at 2. rewrite En2.
      rewrite norm2_nrm by exact (proj2 (is_mat_reals rnd _ _ _ (mk_mat rw rk _))). cbn [reals lens mk tabulate].
      apply nrm_close; [apply gam_pos; auto|]. intros y Hy. apply all_idx_in, inb2_inv in Hy as (a & b & -> & Ha & Hb).
      rewrite reals_at. fold (@el N (mk rw rk (fun i j => @nmul N (norm_coef W m) (@nmul N (el T i j) n1))) a b).
      rewrite el_mk by auto. apply (entry_g m (el T a b) Hm). }
    pose proof (nc_rel m Hm) as H1. pose proof (nu_pos m Hm) as H2. pose proof (nc_pos m Hm) as H3. pose proof (Hsm m Hm) as H4.
    pose proof (gam_pos u (kn m) Hu) as H5. pose proof (gam_pos u 3 Hu) as H6. pose proof g_pos as H7.
    revert Q. generalize (@norm2 Rnum (reals (mk (nrow T) rk (fun i j => @nmul N (norm_coef W m) (@nmul N (el T i j) n1))))). intros y.
    unfold c. change (car Rnum) with R in *. set (ga := gam u (kn m)) in *. set (g3 := gam u 3) in *. set (v := nu m) in *. set (n := nc m) in *. clear - H1 H2 H3 H4 H5 H6 H7. clearbody ga g3 v n g. intros Q.
    assert (Hv1 : (1 - ga) * v <= n /\ n <= (1 + ga) * v) by (apply Rabs_le_inv in H1; lra).
    assert (Hr : g / n * v <= g / (1 - ga) /\ g / (1 + ga) <= g / n * v).
    { unfold Rdiv. split.
      - rewrite Rmult_assoc. apply Rmult_le_compat_l; auto. apply (Rmult_le_reg_r (n * (1 - ga))); [apply Rmult_lt_0_compat; lra|].
        replace (/ n * v * (n * (1 - ga))) with ((1 - ga) * v) by (field; lra). replace (/ (1 - ga) * (n * (1 - ga))) with n by (field; lra). lra.
      - rewrite Rmult_assoc. apply Rmult_le_compat_l; auto. apply (Rmult_le_reg_r (n * (1 + ga))); [apply Rmult_lt_0_compat; lra|].
        replace (/ n * v * (n * (1 + ga))) with ((1 + ga) * v) by (field; lra). replace (/ (1 + ga) * (n * (1 + ga))) with n by (field; lra). lra. }
    set (q := g / n * v) in *. clearbody q. destruct Hr as [Hr1 Hr2].
    assert (Hq : 0 <= q). { eapply Rle_trans; [|exact Hr2]. apply Rmult_le_pos; auto. left. apply Rinv_0_lt_compat. lra. }
    assert (I : 0 < / (1 - ga)) by (apply Rinv_0_lt_compat; lra).
    assert (E0 : (g3 + ga) / (1 - ga) * g = g3 * (g / (1 - ga)) + (g / (1 - ga) - g)) by (field; lra).
    assert (E1 : g - g / (1 + ga) <= g / (1 - ga) - g).
    { assert (g / (1 - ga) - g - (g - g / (1 + ga)) = g * (2 * (ga * ga)) * (/ (1 - ga) * / (1 + ga))) by (field; lra).
      assert (0 <= g * (2 * (ga * ga)) * (/ (1 - ga) * / (1 + ga))); [|lra].
      apply Rmult_le_pos; [apply Rmult_le_pos; auto; apply Rmult_le_pos; [lra|apply Rle_0_sqr]|]. left. apply Rmult_lt_0_compat; auto. apply Rinv_0_lt_compat. lra. }
    assert (E2 : g3 * q <= g3 * (g / (1 - ga))) by (apply Rmult_le_compat_l; auto).
    rewrite E0. apply Rabs_le. apply Rabs_le_inv in Q. lra.
Qed.
End Rnd.
