(** Rounding to IEEE 754 binary64 (round to nearest, ties to even) of the non-negative rationals that the sweep counter of
    CPD::als (src/CP.cxx:117, 168) goes through.  That it is the rounding of the standard is C75_rounding (PropF64.v). *)
From Coq Require Import ZArith QArith Qround Bool Arith Lia.
Local Open Scope Z_scope.

(** the integer nearest to n / d (d > 0), the even one of two *)
Definition half_even (n d : Z) : Z :=
  let f := n / d in
  match 2 * (n mod d) ?= d with
  | Lt => f
  | Gt => f + 1
  | Eq => if Z.even f then f else f + 1
  end.
(** the exponent of n / d: 2^e <= n / d < 2^(e+1) *)
Definition exponent (n d : Z) : Z :=
  let a := Z.log2 n - Z.log2 d in
  if d * 2 ^ Z.max a 0 <=? n * 2 ^ Z.max (- a) 0 then a else a - 1.
(** Numbers from 2^40 on are left alone: the counter is converted to int before every step, which is defined below 2^31 only. *)
Definition rnd64 (q : Q) : Q :=
  let n := Qnum q in
  let d := Zpos (Qden q) in
  if n <=? 0 then q
  else if d * 2 ^ 40 <=? n then q
  else
    let p := 52 - exponent n d in
    half_even (n * 2 ^ p) d # Z.to_pos (2 ^ p).

Lemma half_even_ge n d m : 0 < d -> m * d <= n -> m <= half_even n d.
Proof.
  intros Hd H. assert (A : m <= n / d) by (apply Z.div_le_lower_bound; lia). unfold half_even.
  destruct (2 * (n mod d) ?= d); [destruct (Z.even (n / d))| |]; lia.
Qed.
Lemma half_even_le n d m : 0 < d -> n <= m * d -> half_even n d <= m.
Proof.
  intros Hd H. assert (A := Z.div_mod n d ltac:(lia)). assert (B := Z.mod_pos_bound n d Hd). unfold half_even.
  destruct (Z.compare_spec (2 * (n mod d)) d) as [E|E|E]; [destruct (Z.even (n / d))| |]; nia.
Qed.
(** below 2^40 the rounding keeps at least 13 binary places *)
Lemma exponent_spec n d : 0 < n -> 0 < d ->
  let e := exponent n d in d * 2 ^ Z.max e 0 <= n * 2 ^ Z.max (- e) 0 /\ n * 2 ^ Z.max (- (e + 1)) 0 < d * 2 ^ Z.max (e + 1) 0.
Proof.
  intros Hn Hd. assert (An := Z.log2_spec n Hn). assert (Ad := Z.log2_spec d Hd). unfold exponent. cbv zeta.
  set (x := Z.log2 n) in *. set (y := Z.log2 d) in *. assert (Hx : 0 <= x) by apply Z.log2_nonneg. assert (Hy : 0 <= y) by apply Z.log2_nonneg.
  rewrite !Z.pow_succ_r in * by lia.
  assert (Hup : forall a, a = x - y -> n * 2 ^ Z.max (- (a + 1)) 0 < d * 2 ^ Z.max (a + 1) 0).
  { intros a Ha. destruct (Z_lt_le_dec a (-1)) as [Hlt|Hge].
    - replace (Z.max (- (a + 1)) 0) with (y - x - 1) by lia. replace (Z.max (a + 1) 0) with 0 by lia. rewrite Z.pow_0_r, Z.mul_1_r.
      apply Z.lt_le_trans with (2 * 2 ^ x * 2 ^ (y - x - 1)).
      + apply Z.mul_lt_mono_pos_r; [apply Z.pow_pos_nonneg; lia|lia].
      + rewrite <- Z.mul_assoc, <- Z.pow_add_r, <- Z.pow_succ_r by lia. replace (Z.succ (x + (y - x - 1))) with y by lia. lia.
    - replace (Z.max (- (a + 1)) 0) with 0 by lia. replace (Z.max (a + 1) 0) with (x - y + 1) by lia. rewrite Z.pow_0_r, Z.mul_1_r.
      apply Z.lt_le_trans with (2 * 2 ^ x); [lia|]. apply Z.le_trans with (2 ^ y * 2 ^ (x - y + 1)).
      + rewrite <- Z.pow_add_r, <- Z.pow_succ_r by lia. apply Z.pow_le_mono_r; lia.
      + apply Z.mul_le_mono_nonneg_r; [apply Z.pow_nonneg; lia|lia]. }
  destruct (Z.leb_spec (d * 2 ^ Z.max (x - y) 0) (n * 2 ^ Z.max (- (x - y)) 0)) as [H|H]; [split; [exact H|apply Hup; lia]|].
  set (a := x - y) in *. replace (a - 1 + 1) with a by lia. split; [|exact H].
  destruct (Z_lt_le_dec a 1) as [Hlt|Hge].
  - replace (Z.max (- (a - 1)) 0) with (y - x + 1) by lia. replace (Z.max (a - 1) 0) with 0 by lia. rewrite Z.pow_0_r, Z.mul_1_r.
    apply Z.le_trans with (2 ^ x * 2 ^ (y - x + 1)).
    + rewrite <- Z.pow_add_r by lia. replace (x + (y - x + 1)) with (Z.succ y) by lia. rewrite Z.pow_succ_r by lia. lia.
    + apply Z.mul_le_mono_nonneg_r; [apply Z.pow_nonneg; lia|lia].
  - replace (Z.max (- (a - 1)) 0) with 0 by lia. replace (Z.max (a - 1) 0) with (x - y - 1) by lia. rewrite Z.pow_0_r, Z.mul_1_r.
    apply Z.le_trans with (2 * 2 ^ y * 2 ^ (x - y - 1)).
    + apply Z.mul_le_mono_nonneg_r; [apply Z.pow_nonneg; lia|lia].
    + rewrite <- Z.mul_assoc, <- Z.pow_add_r, <- Z.pow_succ_r by lia. replace (Z.succ (y + (x - y - 1))) with x by lia. lia.
Qed.
Lemma exponent_lt n d : 0 < n -> 0 < d -> n < d * 2 ^ 40 -> exponent n d <= 39.
Proof.
  intros Hn Hd H. destruct (exponent_spec n d Hn Hd) as [A _]. set (e := exponent n d) in *. cbv zeta in A.
  destruct (Z_le_gt_dec e 39) as [|Hgt]; [auto|exfalso]. replace (Z.max (- e) 0) with 0 in A by lia. replace (Z.max e 0) with e in A by lia.
  rewrite Z.pow_0_r, Z.mul_1_r in A. assert (d * 2 ^ 40 <= d * 2 ^ e) by (apply Z.mul_le_mono_nonneg_l; [lia|apply Z.pow_le_mono_r; lia]). lia.
Qed.
(** rounding does not cross a multiple of 2^-13 *)
Lemma rnd64_ge q m : (m # 8192 <= q)%Q -> (m # 8192 <= rnd64 q)%Q.
Proof.
  destruct q as [n d]. unfold rnd64, Qle. cbn [Qnum Qden]. intros H.
  destruct (Z.leb_spec n 0) as [|Hn]; [exact H|]. destruct (Z.leb_spec (Z.pos d * 2 ^ 40) n) as [|Hlt]; [exact H|].
  assert (He := exponent_lt n (Z.pos d) Hn ltac:(lia) Hlt). set (p := 52 - exponent n (Z.pos d)) in *. assert (Hp : 13 <= p) by lia. clear He Hlt. clearbody p.
  cbn [Qnum Qden]. assert (Hpow : 2 ^ p = 8192 * 2 ^ (p - 13)) by (change 8192 with (2 ^ 13); rewrite <- Z.pow_add_r by lia; f_equal; lia).
  assert (P0 : 0 < 2 ^ (p - 13)) by (apply Z.pow_pos_nonneg; lia). rewrite Z2Pos.id by lia. rewrite Hpow.
  assert (A : m * 2 ^ (p - 13) <= half_even (n * (8192 * 2 ^ (p - 13))) (Z.pos d)) by (apply half_even_ge; nia). nia.
Qed.
Lemma rnd64_le q m : (q <= m # 8192)%Q -> (rnd64 q <= m # 8192)%Q.
Proof.
  destruct q as [n d]. unfold rnd64, Qle. cbn [Qnum Qden]. intros H.
  destruct (Z.leb_spec n 0) as [|Hn]; [exact H|]. destruct (Z.leb_spec (Z.pos d * 2 ^ 40) n) as [|Hlt]; [exact H|].
  assert (He := exponent_lt n (Z.pos d) Hn ltac:(lia) Hlt). set (p := 52 - exponent n (Z.pos d)) in *. assert (Hp : 13 <= p) by lia. clear He Hlt. clearbody p.
  cbn [Qnum Qden]. assert (Hpow : 2 ^ p = 8192 * 2 ^ (p - 13)) by (change 8192 with (2 ^ 13); rewrite <- Z.pow_add_r by lia; f_equal; lia).
  assert (P0 : 0 < 2 ^ (p - 13)) by (apply Z.pow_pos_nonneg; lia). rewrite Z2Pos.id by lia. rewrite Hpow.
  assert (A : half_even (n * (8192 * 2 ^ (p - 13))) (Z.pos d) <= m * 2 ^ (p - 13)) by (apply half_even_le; nia). nia.
Qed.
Lemma rnd64_exact q m : (q == m # 8192)%Q -> (rnd64 q == m # 8192)%Q.
Proof. intros H. apply Qle_antisym; [apply rnd64_le|apply rnd64_ge]; rewrite H; apply Qle_refl. Qed.
