(** rnd64 is the rounding of IEEE 754 binary64 (by way of Flocq), and its absolute error *)
From Coq Require Import ZArith QArith Qround Qreals Reals Bool Arith Lia Lra.
From Flocq Require Import Core Relative.
From Verif Require Import F64.
Local Open Scope R_scope.

Lemma half_even_nearest a d : (0 < d)%Z -> ZnearestE (IZR a / IZR d) = half_even a d.
Proof.
  intros Hd. assert (Hd' : 0 < IZR d) by (apply IZR_lt; auto). assert (Hf : Zfloor (IZR a / IZR d) = (a / d)%Z) by (apply Zfloor_div; lia).
  assert (Hdm := Z.div_mod a d ltac:(lia)). assert (Hr := Z.mod_pos_bound a d Hd).
  assert (Hfrac : IZR a / IZR d - IZR (a / d) = IZR (a mod d) / IZR d).
  { rewrite Hdm at 1. rewrite plus_IZR, mult_IZR. field. lra. }
  unfold Znearest, half_even. rewrite Hf, Hfrac. cbv zeta.
  assert (Hc : (a mod d)%Z <> 0%Z -> Zceil (IZR a / IZR d) = (a / d + 1)%Z).
  { intros Hne. rewrite Zceil_floor_neq; rewrite Hf; [reflexivity|]. intros E. apply Hne.
    assert (E' : IZR (a mod d) / IZR d = 0) by (rewrite <- Hfrac, E; ring). apply eq_IZR.
    apply (Rmult_eq_reg_r (/ IZR d)); [|apply Rinv_neq_0_compat; lra]. unfold Rdiv in E'. rewrite E'. ring. }
  destruct (Z.compare_spec (2 * (a mod d)) d) as [E|E|E].
  - replace (Rcompare _ _) with Eq; [|symmetry; apply Rcompare_Eq].
    + rewrite Hc by lia. destruct (Z.even (a / d)); reflexivity.
    + rewrite <- E at 2. rewrite mult_IZR. field. apply IZR_neq. lia.
  - rewrite Rcompare_Lt; [reflexivity|]. apply (Rmult_lt_reg_r (IZR d)); [lra|]. unfold Rdiv. rewrite Rmult_assoc, Rinv_l by lra.
    apply IZR_lt in E. rewrite mult_IZR in E. lra.
  - rewrite Rcompare_Gt; [apply Hc; lia|]. apply (Rmult_lt_reg_r (IZR d)); [lra|]. unfold Rdiv. rewrite Rmult_assoc, Rinv_l by lra.
    apply IZR_lt in E. rewrite mult_IZR in E. lra.
Qed.
Lemma Q2R_div n d : Q2R (n # d) = IZR n / IZR (Z.pos d).
Proof. reflexivity. Qed.
Lemma pow_bpow p : (0 <= p)%Z -> IZR (2 ^ p) = bpow radix2 p.
Proof. intros H. apply (IZR_Zpower radix2 p H). Qed.
Lemma exponent_mag n d : (0 < n)%Z -> (0 < d)%Z -> mag_val radix2 _ (mag radix2 (IZR n / IZR d)) = (exponent n d + 1)%Z.
Proof.
  intros Hn Hd. destruct (exponent_spec n d Hn Hd) as [A B]. set (e := exponent n d) in *. cbv zeta in A, B.
  assert (Hn' : 0 < IZR n) by (apply IZR_lt; auto). assert (Hd' : 0 < IZR d) by (apply IZR_lt; auto).
  assert (Hpos : 0 < IZR n / IZR d) by (apply Rdiv_lt_0_compat; auto).
  assert (Hb : forall k, bpow radix2 (Z.max k 0) = bpow radix2 k * bpow radix2 (Z.max (- k) 0)) by (intros k; rewrite <- bpow_plus; f_equal; lia).
  apply mag_unique. rewrite Rabs_pos_eq by lra. replace (e + 1 - 1)%Z with e by lia. split.
  - apply (Rmult_le_reg_r (IZR d)); [lra|]. unfold Rdiv. rewrite Rmult_assoc, Rinv_l by lra.
    apply IZR_le in A. rewrite !mult_IZR, !pow_bpow, (Hb e) in A by lia. apply (Rmult_le_reg_r (bpow radix2 (Z.max (- e) 0))); [apply bpow_gt_0|]. rewrite Rmult_1_r. lra.
  - apply (Rmult_lt_reg_r (IZR d)); [lra|]. unfold Rdiv. rewrite Rmult_assoc, Rinv_l by lra.
    apply IZR_lt in B. rewrite !mult_IZR, !pow_bpow, (Hb (e + 1)%Z) in B by lia. apply (Rmult_lt_reg_r (bpow radix2 (Z.max (- (e + 1)) 0))); [apply bpow_gt_0|]. rewrite Rmult_1_r. lra.
Qed.
Lemma rnd64_round q : bpow radix2 (-1022) <= Q2R q < bpow radix2 40 -> Q2R (rnd64 q) = round radix2 (FLT_exp (-1074) 53) ZnearestE (Q2R q).
Proof.
  destruct q as [n d]. rewrite Q2R_div. intros [H1 H2]. assert (Hd : (0 < Z.pos d)%Z) by lia. assert (Hd' : 0 < IZR (Z.pos d)) by (apply IZR_lt; auto).
  assert (P := bpow_gt_0 radix2 (-1022)).
  assert (Hn : (0 < n)%Z). { apply lt_IZR. apply (Rmult_lt_reg_r (/ IZR (Z.pos d))); [apply Rinv_0_lt_compat; lra|]. unfold Rdiv in *. lra. }
  assert (H40 : (n < Z.pos d * 2 ^ 40)%Z).
  { apply lt_IZR. rewrite mult_IZR, pow_bpow by lia. apply (Rmult_lt_compat_r (IZR (Z.pos d))) in H2; [|lra]. unfold Rdiv in H2. rewrite Rmult_assoc, Rinv_l in H2 by lra. lra. }
  assert (He := exponent_lt n _ Hn Hd H40). assert (Hm := exponent_mag n _ Hn Hd).
  unfold rnd64. cbn [Qnum Qden]. destruct (Z.leb_spec n 0) as [|_]; [lia|]. destruct (Z.leb_spec (Z.pos d * 2 ^ 40) n) as [|_]; [lia|]. cbv zeta.
  set (x := IZR n / IZR (Z.pos d)) in *. set (e := exponent n (Z.pos d)) in *.
  assert (Hlow : (-1022 < e + 1)%Z).
  { rewrite <- Hm. apply (mag_gt_bpow radix2). rewrite Rabs_pos_eq by lra. exact H1. }
  assert (Hce : cexp radix2 (FLT_exp (-1074) 53) x = (e - 52)%Z) by (unfold cexp, FLT_exp; rewrite Hm; lia).
  unfold round, scaled_mantissa. rewrite Hce. unfold F2R. cbn [Fnum Fexp]. replace (- (e - 52))%Z with (52 - e)%Z by lia. set (p := (52 - e)%Z).
  assert (Hp : (0 <= p)%Z) by lia. assert (Hpp : (0 < 2 ^ p)%Z) by (apply Z.pow_pos_nonneg; lia).
  rewrite Q2R_div, Z2Pos.id by auto. replace (x * bpow radix2 p) with (IZR (n * 2 ^ p) / IZR (Z.pos d)) by (rewrite mult_IZR, pow_bpow by auto; unfold x; field; lra).
  rewrite half_even_nearest by auto. unfold Rdiv. f_equal. rewrite pow_bpow by auto. rewrite <- bpow_opp. f_equal. lia.
Qed.
(** the relative error *)
Lemma rnd64_error q : bpow radix2 (-1022) <= Q2R q < bpow radix2 40 -> Rabs (Q2R (rnd64 q) - Q2R q) <= bpow radix2 (-53) * Q2R q.
Proof.
  intros H. rewrite rnd64_round by auto. assert (P := bpow_gt_0 radix2 (-1022)).
  assert (Hx : Rabs (Q2R q) = Q2R q) by (apply Rabs_pos_eq; lra).
  assert (A := relative_error_N_FLT radix2 (-1074) 53 ltac:(reflexivity) (fun x => negb (Z.even x)) (Q2R q)). rewrite Hx in A. cbn [Z.add Z.sub Z.opp Z.pos_sub] in A.
  specialize (A ltac:(apply H)). replace (bpow radix2 (-53)) with (/ 2 * bpow radix2 (-53 + 1)); [exact A|].
  rewrite bpow_plus. change (bpow radix2 1) with 2. lra.
Qed.
