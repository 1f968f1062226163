(** Over the reals: an explicit singular value decomposition of the 2 x 2 symmetric positive semidefinite matrices *)
From Coq Require Import List ZArith QArith Lia Bool Arith Reals Lra.
From Verif Require Import Base Num NumR Tensor Spec Spec7 Spec18 Spec24 MCommon MCP PBase PTensor PSum PMat PMatAlg PHosvd PHosvdQ PMono2 PTuckMono PConv PropTucker3.
Import ListNotations.
Local Close Scope Q_scope.
Local Open Scope R_scope.

(** the matrix [[a, b], [b, c]]: half the distance of the eigenvalues, the larger and the smaller eigenvalue *)
Definition half_gap (a b c : R) : R := sqrt ((a - c) / 2 * ((a - c) / 2) + b * b).
Definition lam1 (a b c : R) : R := (a + c) / 2 + half_gap a b c.
Definition lam2 (a b c : R) : R := (a + c) / 2 - half_gap a b c.
(** an eigenvector of the larger one, of length 1 *)
Definition vec1 (a b c : R) : R * R :=
  if Req_EM_T b 0 then if Rle_dec c a then (1, 0) else (0, 1)
  else let w := lam1 a b c - a in let n := sqrt (b * b + w * w) in (b / n, w / n).
Lemma gap_sq a b c : half_gap a b c * half_gap a b c = (a - c) / 2 * ((a - c) / 2) + b * b.
Proof. apply sqrt_sqrt. apply Rplus_le_le_0_compat; apply Rle_0_sqr. Qed.
Lemma gap_pos a b c : 0 <= half_gap a b c.
Proof. apply sqrt_pos. Qed.
Lemma vec1_ok a b c : let '(u, v) := vec1 a b c in let l1 := lam1 a b c in let l2 := lam2 a b c in
  u * u + v * v = 1 /\ l1 * (u * u) + l2 * (v * v) = a /\ (l1 - l2) * (u * v) = b /\ l1 * (v * v) + l2 * (u * u) = c.
Proof.
  unfold vec1. pose proof (gap_sq a b c) as G. pose proof (gap_pos a b c) as P. destruct (Req_EM_T b 0) as [E|E].
  - subst. destruct (Rle_dec c a) as [L|L].
    + assert (H : half_gap a 0 c = (a - c) / 2). { apply Rsqr_inj; [auto|lra|]. unfold Rsqr. lra. }
      unfold lam1, lam2. rewrite H. repeat split; field.
    + assert (H : half_gap a 0 c = (c - a) / 2). { apply Rsqr_inj; [auto|lra|]. unfold Rsqr. lra. }
      unfold lam1, lam2. rewrite H. repeat split; field.
  - cbv zeta. unfold lam2. set (D := half_gap a b c) in *. set (w := lam1 a b c - a). assert (Ew : w = (c - a) / 2 + D) by (unfold w, lam1; fold D; field).
    assert (S : b * b = ((a - c) / 2 + D) * w) by (rewrite Ew; lra).
    assert (Np : 0 < b * b + w * w). { pose proof (Rlt_0_sqr b E) as B1. pose proof (Rle_0_sqr w) as B2. unfold Rsqr in *. lra. }
    set (n := sqrt (b * b + w * w)). assert (N2 : n * n = b * b + w * w) by (apply sqrt_sqrt; lra). assert (N0 : n <> 0) by (intros H; rewrite H in N2; lra).
    assert (E1 : b / n * (b / n) = b * b / (b * b + w * w)) by (rewrite <- N2; field; auto).
    assert (E2 : w / n * (w / n) = w * w / (b * b + w * w)) by (rewrite <- N2; field; auto).
    assert (E3 : b / n * (w / n) = b * w / (b * b + w * w)) by (rewrite <- N2; field; auto).
    rewrite E1, E2, E3. unfold lam1. fold D. clear E1 E2 E3 N2 N0. clearbody n w D. assert (Nz : b * b + w * w <> 0) by lra.
    assert (El1 : (a + c) / 2 + D = a + w) by lra. assert (El2 : (a + c) / 2 - D = c - w) by lra. rewrite El1, El2.
    assert (S' : b * b = (w + (a - c)) * w) by (rewrite S; f_equal; lra).
    assert (Sw : w * (b * b) = w * ((w + (a - c)) * w)) by (rewrite S'; reflexivity).
    assert (Sb : b * (b * b) = b * ((w + (a - c)) * w)) by (rewrite S'; reflexivity). clear S' S G P Np Ew El1 El2.
    repeat split.
    + field. auto.
    + apply Rmult_eq_reg_r with (b * b + w * w); auto. transitivity ((a + w) * (b * b) + (c - w) * (w * w)); [field; auto|lra].
    + apply Rmult_eq_reg_r with (b * b + w * w); auto. transitivity ((a + w - (c - w)) * (b * w)); [field; auto|lra].
    + apply Rmult_eq_reg_r with (b * b + w * w); auto. transitivity ((a + w) * (w * w) + (c - w) * (b * b)); [field; auto|lra].
Qed.
Lemma lam_order a b c : 0 <= a -> 0 <= c -> b * b <= a * c -> 0 <= lam2 a b c <= lam1 a b c.
Proof.
  intros Ha Hc H. unfold lam1, lam2. pose proof (gap_sq a b c) as G. pose proof (gap_pos a b c) as P. set (D := half_gap a b c) in *. clearbody D.
  split; [|lra]. assert (D * D <= (a + c) / 2 * ((a + c) / 2)) by (rewrite G; lra). assert (D <= (a + c) / 2) by (apply Rsqr_incr_0_var; [unfold Rsqr; auto|lra]). lra.
Qed.
(** the routine *)
Definition eU (u v : R) (k : nat) : tensor Rnum :=
  tabulate (N:=Rnum) [2%nat; k] (fun x => match nth 0 x 0%nat, nth 1 x 0%nat with 0%nat, 0%nat => u | 0%nat, _ => (- v)%R | _, 0%nat => v | _, _ => u end).
Definition svd2 (G : tensor Rnum) (k : nat) : tensor Rnum * tensor Rnum * tensor Rnum :=
  if Nat.eqb (nrow G) 2 then
    let '(u, v) := vec1 (el G 0 0) (el G 0 1) (el G 1 1) in (eU u v k, zeros [k], zeros [k; 2%nat])
  else (zeros [nrow G; k], zeros [k], zeros [k; ncol G]).
Definition LA2 : lapack Rnum := @mkLapack Rnum svd2 (fun A => A) (fun B L _ _ _ => B) (fun A => A) (fun _ ls => zeros ls).
Lemma LA2_shaped : svd_trunc_shaped (svd LA2).
Proof.
  intros G n k [HG _] Hk. cbn [svd LA2]. unfold svd2. assert (E : nrow G = n) by (unfold nrow; rewrite HG; reflexivity). rewrite E.
  destruct (Nat.eqb_spec n 2) as [->|]; [destruct (vec1 _ _ _) as [u v]|]; (split; [split; [reflexivity|apply tabulate_wf]|split; [reflexivity|apply tabulate_wf]]).
Qed.
Lemma svd2_leading (G : tensor Rnum) k : is_mat G 2 2 -> (k <= 2)%nat -> el G 1 0 = el G 0 1 -> 0 <= el G 0 0 -> 0 <= el G 1 1 ->
  el G 0 1 * el G 0 1 <= el G 0 0 * el G 1 1 -> leading_svd (svd LA2) G 2 k.
Proof.
  intros HG Hk Hs Ha Hc HD. pose proof (lam_order _ _ _ Ha Hc HD) as [L1 L2]. pose proof (vec1_ok (el G 0 0) (el G 0 1) (el G 1 1)) as H.
  assert (EG : G = @mkT Rnum [2; 2]%nat [el G 0 0; el G 1 0; el G 0 1; el G 1 1]).
  { destruct HG as [HL HW]. destruct G as [ls d]. cbn in HL, HW. subst ls. cbn in HW. do 5 (destruct d as [|? d]; try discriminate HW). reflexivity. }
  set (a := el G 0 0) in *. set (b := el G 0 1) in *. set (c := el G 1 1) in *.
  unfold leading_svd, lsv. cbn [svd LA2]. unfold svd2. replace (nrow G) with 2%nat by (unfold nrow; rewrite (proj1 HG); reflexivity). cbn [Nat.eqb]. fold a b c.
  destruct (vec1 a b c) as [u v]. destruct H as (H1 & H2 & H3 & H4). set (l1 := lam1 a b c) in *. set (l2 := lam2 a b c) in *.
  rewrite Hs in EG. clearbody a b c l1 l2. subst G.
  exists (eU u v 2), (@mkT Rnum [2%nat] [l1; l2]), (mtrans (eU u v 2)).
  assert (V1 : mmul (mtrans (eU u v 2)) (eU u v 2) = mid 2). { qcalc. f_equal. repeat (apply f_equal2; [first [ring|rewrite <- H1; ring]|]). reflexivity. }
  assert (V2 : mmul (eU u v 2) (mtrans (eU u v 2)) = mid 2). { qcalc. f_equal. repeat (apply f_equal2; [first [ring|rewrite <- H1; ring]|]). reflexivity. }
  assert (V3 : mtrans (mtrans (eU u v 2)) = eU u v 2) by reflexivity.
  split; [|split; [|split; [|split]]].
  - split; [split; reflexivity|]. split; [reflexivity|]. split; [reflexivity|]. split; [split; reflexivity|]. rewrite V3.
    split; [|auto]. qcalc. f_equal. apply f_equal2; [rewrite <- H2; ring|]. apply f_equal2; [rewrite <- H3; ring|]. apply f_equal2; [rewrite <- H3; ring|]. apply f_equal2; [rewrite <- H4; ring|]. reflexivity.
  - intros i Hi. apply Rnle. destruct i as [|[|i]]; [change (0 <= l1); lra|change (0 <= l2); lra|lia].
  - intros i j Hij. apply Rnle. destruct i as [|[|i]], j as [|[|j]]; try lia; [change (l1 <= l1)|change (l2 <= l1)|change (l2 <= l2)]; lra.
  - split; [reflexivity|apply tabulate_wf].
  - intros i j Hi Hj. destruct k as [|[|[|k]]]; try lia; destruct i as [|[|i]]; try lia; destruct j as [|[|j]]; try lia; reflexivity.
Qed.
Lemma gram_el (T : tensor Rnum) n a b : (a < nth n (lens T) 0)%nat -> (b < nth n (lens T) 0)%nat -> el (unfold_gram T n) a b = unfold_gram_at T n a b.
Proof. intros Ha Hb. unfold unfold_gram, el. rewrite at_tabulate by (repeat constructor; auto). reflexivity. Qed.
Lemma LA2_leading ls ranks : (forall n, (n < length ls)%nat -> nth n ls 0%nat = 2%nat) -> (forall n, (n < length ls)%nat -> (nth n ranks 0 <= 2)%nat) -> svd_leading (svd LA2) ls ranks.
Proof.
  intros H2 Hr T n Hn HT HL. rewrite (H2 n Hn) in *. pose proof (unfold_gram_mat T n) as HM. rewrite HL in HM.
  apply svd2_leading; auto; rewrite ?gram_el by (rewrite HL; lia).
  - unfold unfold_gram_at. apply bigsum_ext. intros x _. cbn. ring.
  - apply bigsum_nonneg. intros x _. apply Rle_0_sqr.
  - apply bigsum_nonneg. intros x _. apply Rle_0_sqr.
  - unfold unfold_gram_at. apply (cauchy (all_idx (lset (lens T) n 1%nat)) (fun x => at_ T (lset x n 0%nat)) (fun x => at_ T (lset x n 1%nat))).
Qed.
