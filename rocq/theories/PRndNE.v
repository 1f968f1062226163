(** After a rounded update the new factor nearly solves the normal equations *)
From Coq Require Import List ZArith Reals Lra Lia Bool Arith Permutation.
From Verif Require Import Base Num NumR Tensor Spec Spec27 Spec28 Spec29 Spec30 MCommon MCP PBase PTensor PSum PMttkrp PMat PMatAlg PSolve PResid PGrad PALS PConv PPPMulti PErr PRnd PRndDT PRndDT2 PRndGrad PRndGrad2 PRndALS PRndALS2.
Import ListNotations.
Local Open Scope R_scope.

Lemma bs_dist {X} (l : list X) (f g h : X -> R) (a b : R) : a = @bigsum Rnum _ l f -> b = @bigsum Rnum _ l g ->
  (forall x, In x l -> f x - g x = h x) -> a - b = @bigsum Rnum _ l h.
Proof.
  intros -> -> H. rewrite <- (bs_ext l _ _ H). change (@bigsum Rnum _ l f - @bigsum Rnum _ l g) with (@nsub Rnum (@bigsum Rnum _ l f) (@bigsum Rnum _ l g)).
  symmetry. exact (bigsum_sub Rnum_ring l f g).
Qed.
Lemma split4 (al r sr ap pm m : R) : al - r = (al - sr) + (sr - ap) + (ap - m) + (m - r).
Proof. ring. Qed.
(** the estimate on bare functions; k is the rank *)
Lemma normal_residual_R (k : nat) (a y : nat -> R) (m : nat -> R) (p S : nat -> nat -> R) (L LA : nat -> R) (j : nat) (r RA mj g g1 g2 : R) :
  (forall x, (x < k)%nat -> Rabs (a x - @bigsum Rnum _ (seq 0 k) (fun z => m z * p z x)) <= g * y x) ->
  (forall x, (x < k)%nat -> Rabs (S x j - L x) <= g1 * LA x) ->
  (j < k)%nat -> mj = m j -> Rabs (mj - r) <= g2 * RA ->
  Rabs (@bigsum Rnum _ (seq 0 k) (fun x => a x * L x) - r)
  <= g1 * @bigsum Rnum _ (seq 0 k) (fun x => Rabs (a x) * LA x) + g2 * RA + g * @bigsum Rnum _ (seq 0 k) (fun x => y x * Rabs (S x j))
     + @bigsum Rnum _ (seq 0 k) (fun z => Rabs (m z) * Rabs (@bigsum Rnum _ (seq 0 k) (fun x => p z x * S x j) - (if Nat.eqb z j then 1 else 0))).
Proof.
  intros HA HS Hj -> HM.
  set (AL := @bigsum Rnum _ (seq 0 k) (fun x => a x * L x)).
  set (AS := @bigsum Rnum _ (seq 0 k) (fun x => a x * S x j)).
  set (AP := @bigsum Rnum _ (seq 0 k) (fun z => m z * @bigsum Rnum _ (seq 0 k) (fun x => p z x * S x j))).
  assert (E1 : AL - AS = @bigsum Rnum _ (seq 0 k) (fun x => a x * (L x - S x j))).
  { eapply bs_dist; [reflexivity|reflexivity|]. intros; cbv beta; ring. }
  assert (EAP : AP = @bigsum Rnum _ (seq 0 k) (fun x => @bigsum Rnum _ (seq 0 k) (fun z => m z * p z x) * S x j)).
  { unfold AP. rewrite (bs_ext _ _ (fun z => @bigsum Rnum _ (seq 0 k) (fun x => m z * p z x * S x j))).
    2:{ intros z _. rewrite <- bs_mul_l. apply bs_ext. intros; ring. }
    rewrite (bigsum_swap Rnum_ring). apply bs_ext. intros x _. rewrite <- bs_mul_r. reflexivity. }
  assert (E2 : AS - AP = @bigsum Rnum _ (seq 0 k) (fun x => (a x - @bigsum Rnum _ (seq 0 k) (fun z => m z * p z x)) * S x j)).
  { eapply bs_dist; [reflexivity|exact EAP|]. intros x _. cbv beta. set (q := @bigsum Rnum _ (seq 0 k) (fun z => m z * p z x)). change (car Rnum) with R in *. clearbody q. ring. }
  assert (E3 : AP - m j = @bigsum Rnum _ (seq 0 k) (fun z => m z * (@bigsum Rnum _ (seq 0 k) (fun x => p z x * S x j) - (if Nat.eqb z j then 1 else 0)))).
  { eapply bs_dist; [reflexivity| |].
    - symmetry. apply (bigsum_delta' Rnum_ring j k m Hj).
    - intros z _. cbv beta. set (q := @bigsum Rnum _ (seq 0 k) (fun x => p z x * S x j)). change (car Rnum) with R in *. clearbody q.
    cbn [n1 n0 Rnum]. destruct (Nat.eqb z j); cbn; ring. }
  assert (B1 : Rabs (AL - AS) <= g1 * @bigsum Rnum _ (seq 0 k) (fun x => Rabs (a x) * LA x)).
  { rewrite E1, <- bs_mul_l. apply abs_sum. intros x Hx. apply in_seq in Hx. rewrite Rabs_mult.
    specialize (HS x ltac:(lia)). rewrite Rabs_minus_sym in HS.
    replace (g1 * (Rabs (a x) * LA x)) with (Rabs (a x) * (g1 * LA x)) by ring. apply Rmult_le_compat_l; [apply Rabs_pos|exact HS]. }
  assert (B2 : Rabs (AS - AP) <= g * @bigsum Rnum _ (seq 0 k) (fun x => y x * Rabs (S x j))).
  { rewrite E2, <- bs_mul_l. apply abs_sum. intros x Hx. apply in_seq in Hx. rewrite Rabs_mult, <- Rmult_assoc.
    apply Rmult_le_compat_r; [apply Rabs_pos|apply HA; lia]. }
  assert (B3 : Rabs (AP - m j) <= @bigsum Rnum _ (seq 0 k) (fun z => Rabs (m z) * Rabs (@bigsum Rnum _ (seq 0 k) (fun x => p z x * S x j) - (if Nat.eqb z j then 1 else 0)))).
  { rewrite E3. apply abs_sum. intros z _. rewrite Rabs_mult. apply Rle_refl. }
  set (q1 := @bigsum Rnum _ (seq 0 k) (fun x => Rabs (a x) * LA x)) in *. set (q2 := @bigsum Rnum _ (seq 0 k) (fun x => y x * Rabs (S x j))) in *.
  set (q3 := @bigsum Rnum _ (seq 0 k) (fun z => Rabs (m z) * _)) in *. change (car Rnum) with R in *.
  clearbody AL AS AP q1 q2 q3. clear - HM B1 B2 B3. set (mj := m j) in *. clearbody mj.
  replace (AL - r) with ((AL - AS) + (AS - AP) + (AP - mj) + (mj - r)) by ring.
  pose proof (Rabs_triang (AL - AS + (AS - AP) + (AP - mj)) (mj - r)). pose proof (Rabs_triang (AL - AS + (AS - AP)) (AP - mj)).
  pose proof (Rabs_triang (AL - AS) (AS - AP)). lra.
Qed.

Local Open Scope nat_scope.
Lemma hgram_own {N : num} (W : list (tensor N)) n rk A : n < length W -> hgram (setf W n A) n rk = hgram W n rk.
Proof.
  intros Hn. unfold hgram. apply tabulate_ext. intros idx _. unfold hgram_at. rewrite setf_length. apply bigprod_ext.
  intros m Hm. apply others_in in Hm as [_ Hne]. rewrite fac_setf by auto. destruct (Nat.eqb_spec m n); [contradiction|reflexivity].
Qed.
Lemma mttkrp_own {N : num} (V : tensor N) (W : list (tensor N)) n rk A : n < length W -> n < order V -> mttkrp V (setf W n A) n rk = mttkrp V W n rk.
Proof.
  intros Hn Ho. unfold mttkrp. apply tabulate_ext. intros idx _. apply mttkrp_other_only; auto.
  intros m Hm Hne. rewrite fac_setf by auto. destruct (Nat.eqb_spec m n); [contradiction|reflexivity].
Qed.
Lemma map_setf {M N : num} (h : tensor M -> tensor N) (W : list (tensor M)) n A : map h (setf W n A) = setf (map h W) n (h A).
Proof. unfold setf. revert n. induction W as [|x W IH]; intros [|n]; cbn; auto. f_equal. apply IH. Qed.
Lemma mabs_mat A r c : @is_mat Rnum A r c -> is_mat (mabs A) r c.
Proof. intros [E1 E2]. split; [exact E1|]. unfold wf, mabs. cbn [lens data]. rewrite map_length. exact E2. Qed.
Lemma el_mabs A i j : @el Rnum (mabs A) i j = Rabs (@el Rnum A i j).
Proof. exact (absols_at (fun x => x) A [i; j]). Qed.
Lemma pinv_matrix_mat (U s VT : tensor Rnum) k : @is_mat Rnum U k k -> @is_mat Rnum VT k k -> @is_mat Rnum (pinv_matrix U s VT k) k k.
Proof.
  intros HU HV. unfold pinv_matrix. apply (mmul_mat _ _ k k k); [|apply mtrans_mat; auto].
  apply (mmul_mat _ _ k k k); [apply mtrans_mat; auto|apply mdiag_mat].
Qed.

Section Rnd.
Context (rnd : Rdefinitions.R -> Rdefinitions.R) (u : Rdefinitions.R).
Notation N := (Fl rnd).

Theorem normal_residual_r kM svd lambda (V : tensor N) F W n rk W' : svd_shaped svd -> factors_ok V W rk -> n < order V ->
  als_solve_within u kM svd lambda V F rk W n W' -> normal_residual_within u kM svd lambda V F rk n W'.
Proof.
  intros Hsh (HwV & HL & HWm) Hn (M & S & A & HM & HS & HA & ->).
  assert (HA' : is_mat A (nth n (lens V) 0) rk) by (destruct (svd S rk) as [[U sv] VT]; apply HA).
  assert (EL : forall (h : tensor N -> tensor Rnum) l, @als_lhs Rnum l (map h (setf W n A)) rk n = @als_lhs Rnum l (map h W) rk n).
  { intros h l. unfold als_lhs. rewrite map_setf, hgram_own; [reflexivity|]. rewrite map_length. lia. }
  assert (ER : forall (h : tensor N -> tensor Rnum) V', order V' = order V -> @als_rhs Rnum V' (map h F) (map h (setf W n A)) rk n = @als_rhs Rnum V' (map h F) (map h W) rk n).
  { intros h V' Ho. unfold als_rhs. rewrite map_setf, mttkrp_own; [reflexivity| |lia]. rewrite map_length. lia. }
  assert (EF : fac (setf W n A) n = A) by (rewrite fac_setf by lia; rewrite Nat.eqb_refl; reflexivity).
  unfold normal_residual_within. cbv zeta. rewrite !EL, !ER, EF by reflexivity.
  exists M, S. split; [exact HM|]. split; [exact HS|].
  destruct HM as [HMm HM]. destruct HS as [HSm HS].
  specialize (Hsh S rk HSm). destruct (svd S rk) as [[U sv] VT]. destruct Hsh as (HU & Hs & Hws & HV).
  destruct HA as [_ HA]. intros i j Hi Hj.
  set (rhs := @als_rhs Rnum (reals V) (map reals F) (map reals W) rk n) in *.
  set (rhsa := @als_rhs Rnum (absols V) (map absols F) (map absols W) rk n) in *.
  set (lhs := @als_lhs Rnum lambda (map reals W) rk n) in *.
  set (lhsa := @als_lhs Rnum (Rabs lambda) (map absols W) rk n) in *.
  set (g := gram_roundings (lens V) n) in *. set (s := nth n (lens V) 0) in *.
  assert (L1 : is_mat lhs rk rk) by apply (lhs_mat (N:=Rnum)). assert (L2 : is_mat lhsa rk rk) by apply (lhs_mat (N:=Rnum)).
  assert (A1 := is_mat_reals rnd _ _ _ HA'). assert (A2 := is_mat_absols rnd _ _ _ HA').
  assert (S1 := is_mat_reals rnd _ _ _ HSm). assert (S2 := is_mat_absols rnd _ _ _ HSm).
  assert (M1 := is_mat_reals rnd _ _ _ HMm). assert (M2 := is_mat_absols rnd _ _ _ HMm).
  assert (P1 := pinv_matrix_mat (reals U) (reals sv) (reals VT) rk (is_mat_reals rnd _ _ _ HU) (is_mat_reals rnd _ _ _ HV)).
  assert (P2 := pinv_matrix_mat (absols U) (absols sv) (absols VT) rk (is_mat_absols rnd _ _ _ HU) (is_mat_absols rnd _ _ _ HV)).
  unfold pinv_solve in HA. cbv beta iota in HA.
  fold (pinv_matrix (reals U) (reals sv) (reals VT) rk) in HA. fold (pinv_matrix (absols U) (absols sv) (absols VT) rk) in HA.
  set (P := pinv_matrix (reals U) (reals sv) (reals VT) rk) in *. set (Pa := pinv_matrix (absols U) (absols sv) (absols VT) rk) in *.
  assert (D1 : @is_mat Rnum (msub (mmul P (reals S)) (mid rk)) rk rk) by (apply (msub_mat' (N:=Rnum)), (mmul_mat (N:=Rnum) _ _ rk rk rk); auto).
  assert (MP : @is_mat Rnum (mmul (absols M) Pa) s rk) by (apply (mmul_mat (N:=Rnum) _ _ s rk rk); auto).
  rewrite (el_msub (N:=Rnum) _ _ s rk) by (auto; apply (mmul_mat (N:=Rnum) _ _ s rk rk); auto).
  rewrite (el_mmul (N:=Rnum) _ lhs s rk rk), (el_mmul (N:=Rnum) _ lhsa s rk rk), (el_mmul (N:=Rnum) _ (absols S) s rk rk), (el_mmul (N:=Rnum) _ (mabs _) s rk rk) by (auto; apply mabs_mat; auto).
  pose proof (normal_residual_R rk (fun x => @el Rnum (reals A) i x) (fun x => @el Rnum (mmul (absols M) Pa) i x) (fun z => @el Rnum (reals M) i z)
    (fun z x => @el Rnum P z x) (fun x y => @el Rnum (reals S) x y) (fun x => @el Rnum lhs x j) (fun x => @el Rnum lhsa x j) j
    (@el Rnum rhs i j) (@el Rnum rhsa i j) (@el Rnum (reals M) i j) (gam u (2 * rk + 8)) (gam u (g + 1)) (gam u (kM + 1))) as Q.
  eapply Rle_trans; [apply Q|]; clear Q; try (exact Hj); try reflexivity.
  - intros x Hx. cbv beta. specialize (HA i x Hi Hx). rewrite (el_mmul (N:=Rnum) (reals M) P s rk rk) in HA by auto. exact HA.
  - intros x Hx. exact (HS x j Hx Hj).
  - exact (HM i j Hi Hj).
  - cbv beta. apply Req_le. apply (f_equal2 Rplus); [apply (f_equal2 Rplus); [apply (f_equal2 Rplus); [|reflexivity]|]|].
    + apply (f_equal (Rmult _)). apply (@bigsum_ext Rnum). intros x Hx. cbn [nmul Rnum]. f_equal. unfold el. rewrite absols_at, reals_at. reflexivity.
    + apply (f_equal (Rmult _)). apply (@bigsum_ext Rnum). intros x Hx. cbn [nmul Rnum]. f_equal. unfold el. rewrite absols_at, reals_at. reflexivity.
    + apply (@bigsum_ext Rnum). intros x Hx. apply in_seq in Hx. cbn [nmul Rnum]. f_equal.
      * unfold el. rewrite absols_at, reals_at. reflexivity.
      * rewrite el_mabs. rewrite (el_msub (N:=Rnum) _ _ rk rk) by (try lia; apply (mmul_mat (N:=Rnum) _ _ rk rk rk); auto).
        rewrite (el_mmul (N:=Rnum) P (reals S) rk rk rk) by (auto; lia). unfold mid. rewrite (el_mdiag (N:=Rnum)) by lia. reflexivity.
Qed.
End Rnd.
(** an exact decomposition inverts exactly: the last term vanishes *)
Theorem pinv_defect_0 (S U sv VT : tensor Rnum) k : is_svd S U sv VT k -> (forall i, i < k -> @at_ Rnum sv [i] <> 0%R) ->
  mmul (pinv_matrix U sv VT k) S = @mid Rnum k.
Proof.
  intros H Hn. pose proof H as (HU & Hs & Hws & HV & _).
  assert (Hi : forall i, i < k -> @nmul Rnum (at_ sv [i]) (@ndiv Rnum n1 (at_ sv [i])) = n1).
  { intros i Hi. specialize (Hn i Hi). set (x := @at_ Rnum sv [i]) in *. clearbody x. cbn. change (car Rnum) with R in *. field. exact Hn. }
  rewrite <- (svd_inverse_ok Rnum_ring S U sv VT k H Hi). f_equal.
  unfold pinv_matrix. pose proof (mtrans_mat VT k k HV) as HVt. pose proof (mtrans_mat U k k HU) as HUt.
  rewrite (mmul_diag_r Rnum_ring _ k k) by auto.
  rewrite (mmul_mk _ _ k k k) by (auto; apply mk_mat). apply mk_ext. intros i j Hi' Hj.
  apply bigsum_ext. intros x Hx. apply in_seq in Hx. rewrite el_mk by lia.
  rewrite (el_mtrans VT k k) by (auto; lia). rewrite (el_mtrans U k k) by (auto; lia).
  rewrite (at1_inv sv k) by (auto; lia). auto.
Qed.
