(** The distance guard of the approximate phase bounds the perturbations it works with *)
From Coq Require Import List ZArith Lia Bool Arith Reals Lra.
From Verif Require Import Base Num NumR Tensor Spec Spec2 Spec7 Spec12 Spec18 Spec20 MCommon MCP PBase PTensor PSum PMttkrp PPart PMat PMatAlg PResid PGrad PRank PNormalize PALS
  PMono PMono2 PTree PDT PDTSweep PDrivers PPP PPPSweep PPPDriver PDriverRef PConv PConv2 PPPMulti PErr.
Import ListNotations.
Local Open Scope R_scope.
Local Notation RL := Rnum_ring.
Local Notation bs := (bigsum (N:=Rnum)).
Local Notation bp := (bigprod (N:=Rnum)).

Lemma pow_le_inv (x y : R) n : (1 <= n)%nat -> 0 <= x -> 0 <= y -> x ^ n <= y ^ n -> x <= y.
Proof.
  intros Hn Hx Hy H. destruct (Rle_lt_dec x y) as [|L]; auto. exfalso.
  assert (K : y ^ n < x ^ n); [|lra]. clear H. destruct n as [|n]; [lia|]. clear Hn. induction n as [|n IH]; [cbn; lra|].
  change (y * y ^ S n < x * x ^ S n). apply Rmult_le_0_lt_compat; auto. apply pow_le; auto.
Qed.
Lemma bp_pos {A} (l : list A) (g : A -> R) : (forall x, In x l -> 0 < g x) -> 0 < bp l g.
Proof.
  induction l as [|x l IH]; intros H; [change (0 < 1); lra|]. rewrite bp_cons. apply Rmult_lt_0_compat; [apply H; left; auto|apply IH; intros; apply H; right; auto].
Qed.
Lemma pos_of (x : R) : 0 <= x -> x <> 0 -> 0 < x.
Proof. lra. Qed.
Lemma rescaled_norms (W : list (tensor Rnum)) rk m : (1 <= length W)%nat ->
  (forall q, (q < length W)%nat -> is_mat (fac W q) (nrow (fac W q)) rk /\ norm2 (fac W q) <> 0) -> (m < length W)%nat ->
  norm2 (fac (rescaled W) m) = Rroot (length W) (bp W norm2) /\ Rroot (length W) (bp W norm2) ^ length W = bp W norm2 /\ 0 < Rroot (length W) (bp W norm2).
Proof.
  intros Hl HW Hm.
  assert (BP : 0 < bp W norm2).
  { apply (bp_pos W (norm2 (N:=Rnum))). intros A HA. destruct (In_nth _ _ tnil HA) as (p & Hp & <-). fold (fac W p).
    apply pos_of; [apply norm2_nonneg|apply HW; auto]. }
  assert (G0 : 0 < Rroot (length W) (bp W norm2)) by (unfold Rroot; destruct (Rlt_dec 0 (bp W norm2)); [apply exp_pos|contradiction]).
  split; [|split; auto].
  - unfold rescaled, fac. rewrite (nth_map_lt _ _ _ tnil) by lia. fold (fac W m). destruct (HW m Hm) as [HM Q].
    pose proof (pos_of _ (norm2_nonneg (fac W m)) Q) as P. change (nroot (n:=Rnum)) with Rroot. change (ndiv (n:=Rnum)) with Rdiv.
    rewrite (norm2_scal _ _ _ _ (Rlt_le _ _ (Rdiv_lt_0_compat _ _ G0 P)) HM).
    set (g := Rroot _ _) in *. set (x := norm2 (fac W m)) in *. clearbody g x. change (car Rnum) with R in *. field. auto.
  - apply Rroot_pow; [lia|]. apply Rlt_le. exact BP.
Qed.
Lemma norm2_madd (A B : tensor Rnum) r c : is_mat A r c -> is_mat B r c -> norm2 (madd A B) <= norm2 A + norm2 B.
Proof.
  intros HA HB. unfold madd. rewrite norm2_tabulate, (norm2_nrm A), (norm2_nrm B) by (apply HA || apply HB).
  destruct HA as [-> _]. destruct HB as [-> _]. apply minkowski.
Qed.
Lemma rel_change_R (W dW : list (tensor Rnum)) m : rel_change W dW m = Rabs (norm2 (fac dW m) / norm2 (fac W m)).
Proof. reflexivity. Qed.
Lemma div_le_R (d g e : R) : 0 < g -> 0 <= d -> ~ e < Rabs (d / g) -> d <= e * g.
Proof.
  intros Hg Hd H. rewrite Rabs_pos_eq in H by (apply Rmult_le_pos; auto; apply Rlt_le, Rinv_0_lt_compat; auto).
  replace d with (d / g * g) by (field; lra). apply Rmult_le_compat_r; lra.
Qed.
Lemma too_far_false V e (W dW : list (tensor Rnum)) m : too_far (N:=Rnum) V (e : Rnum) W dW = false -> (m < order V)%nat -> ~ e < rel_change W dW m.
Proof.
  intros H Hm. unfold too_far in H. intros L.
  assert (K : existsb (fun m => nltb (n:=Rnum) e (rel_change W dW m)) (seq 0 (order V)) = true); [|congruence].
  apply existsb_exists. exists m. split; [apply in_seq; lia|]. change (Rltb e (rel_change W dW m) = true). destruct (Rltb_spec e (rel_change W dW m)); auto.
Qed.
Lemma g_bound (g a e : R) : 0 <= e < 1 -> g <= a + e * g -> g <= a / (1 - e).
Proof. intros He H. apply (Rmult_le_reg_r (1 - e)); [lra|]. replace (a / (1 - e) * (1 - e)) with a by (field; lra). lra. Qed.

Section Guard.
Context (V : tensor Rnum) (rk : nat) (a e : R).
Let o := order V.
Hypothesis Ho : (1 <= o)%nat.
Hypothesis He : 0 <= e < 1.
Hypothesis Ha : 0 < a.
Theorem guard W0 dW : mats_ok V W0 rk -> mats_ok V dW rk -> (forall m, (m < o)%nat -> norm2 (fac W0 m) = a) ->
  (forall m, (m < o)%nat -> norm2 (madd (fac W0 m) (fac dW m)) <> 0) ->
  too_far (N:=Rnum) V (e : Rnum) (rescaled (perturbed W0 dW)) dW = false ->
  forall m, (m < o)%nat -> norm2 (fac dW m) <= e / (1 - e) * a.
Proof.
  intros HW HD HN HP HT m Hm. set (P := perturbed W0 dW) in *.
  assert (LP : length P = o) by (unfold P, perturbed; rewrite map_length, seq_length; apply HW).
  assert (FP : forall q, (q < o)%nat -> fac P q = madd (fac W0 q) (fac dW q)).
  { intros q Hq. unfold P, perturbed. destruct HW as [-> _]. fold o. apply (fac_map_seq (fun m => madd (fac W0 m) (fac dW m))). auto. }
  set (g := Rroot (length P) (bp P norm2)).
  assert (K : forall q, (q < length P)%nat -> norm2 (fac (rescaled P) q) = g /\ g ^ length P = bp P norm2 /\ 0 < g).
  { intros q Hq. apply (rescaled_norms P rk); auto; [lia|]. intros p Hp. rewrite LP in Hp. rewrite FP by auto.
    assert (HM : is_mat (madd (fac W0 p) (fac dW p)) (nth p (lens V) 0%nat) rk) by (apply madd_mat, HW; auto).
    split; [rewrite (is_mat_nrow _ _ _ HM); auto|apply HP; auto]. }
  assert (D : forall q, (q < o)%nat -> norm2 (fac dW q) <= e * g).
  { intros q Hq. destruct (K q ltac:(lia)) as (E1 & _ & G0). apply div_le_R; [auto|apply norm2_pos|].
    rewrite <- E1, <- rel_change_R. apply (too_far_false V); auto. }
  destruct (K 0%nat ltac:(lia)) as (_ & EG & G0).
  assert (GB : g <= a / (1 - e)).
  { apply g_bound; auto. apply (pow_le_inv _ _ (length P)); [lia|lra|assert (0 <= e * g) by (apply Rmult_le_pos; lra); lra|].
    rewrite EG. replace ((a + e * g) ^ length P) with (bp P (fun _ => a + e * g)) by apply bp_const. apply bp_le. intros A HA.
    destruct (In_nth _ _ tnil HA) as (q & Hq & <-). fold (fac P q). rewrite LP in Hq. split; [apply norm2_pos|]. rewrite FP by auto.
    eapply Rle_trans; [apply (norm2_madd _ _ (nth q (lens V) 0%nat) rk); [apply HW|apply HD]; auto|]. rewrite (HN q Hq). specialize (D q Hq).
    change (car Rnum) with R in *. lra. }
  eapply Rle_trans; [apply D; auto|]. replace (e / (1 - e) * a) with (e * (a / (1 - e))) by (field; lra). apply Rmult_le_compat_l; lra.
Qed.
End Guard.

(** ** the perturbations during a sweep *)
Lemma setf_out {N : num} (W : list (tensor N)) n A : (length W <= n)%nat -> setf W n A = W.
Proof. unfold setf. revert n. induction W as [|x W IH]; intros [|n] H; cbn in *; auto; [lia|]. f_equal. apply IH. lia. Qed.
Section Sweep.
Context {N : num} (V : tensor N) (rk : nat) (solve : tensor N -> tensor N -> tensor N) (lambda ratio : N) (W0 : list (tensor N)).
Let o := order V.
Notation U := (pp_upto solve lambda ratio V W0 rk).
Lemma upto_S' n st : U (S n) st = pp_update solve lambda ratio V W0 rk (U n st) n.
Proof. unfold pp_upto. rewrite seq_S, fold_left_app. reflexivity. Qed.
Lemma upto_len n W dW : length (fst (U n (W, dW))) = length W /\ length (snd (U n (W, dW))) = length dW.
Proof.
  induction n as [|n IH]; [split; reflexivity|]. rewrite upto_S'. destruct (U n (W, dW)) as [Wn dn]. cbn [fst snd] in IH. unfold pp_update. cbn [fst snd]. rewrite !setf_length. exact IH.
Qed.
Lemma upto_fac n W dW m : length W = o -> length dW = o -> (m < o)%nat ->
  fac (snd (U n (W, dW))) m = (if (m <? n)%nat then fac (snd (U (S m) (W, dW))) m else fac dW m) /\
  ((m < n)%nat -> fac (fst (U n (W, dW))) m = madd (fac W0 m) (fac (snd (U n (W, dW))) m)).
Proof.
  intros LW LD Hm. induction n as [|n IH]; [split; [reflexivity|lia]|]. destruct (Nat.eq_dec m n) as [->|Hne].
  - replace (n <? S n)%nat with true by (symmetry; apply Nat.ltb_lt; lia). split; [reflexivity|]. intros _. rewrite upto_S'.
    pose proof (upto_len n W dW) as [L1 L2]. destruct (U n (W, dW)) as [Wn dn]. cbn [fst snd] in L1, L2. unfold pp_update. cbn [fst snd].
    rewrite !fac_setf by lia. rewrite Nat.eqb_refl. reflexivity.
  - destruct IH as [I1 I2]. replace (m <? S n)%nat with (m <? n)%nat by (destruct (Nat.ltb_spec m n), (Nat.ltb_spec m (S n)); auto; lia).
    rewrite (upto_S' n). pose proof (upto_len n W dW) as [L1 L2]. destruct (U n (W, dW)) as [Wn dn]. cbn [fst snd] in L1, L2, I1, I2. unfold pp_update. cbn [fst snd].
    destruct (Nat.lt_ge_cases n o) as [Hn|Hn].
    + rewrite !fac_setf by lia. destruct (Nat.eqb_spec m n); [lia|]. split; [exact I1|]. intros; apply I2; lia.
    + rewrite !setf_out by lia. split; [exact I1|]. intros; apply I2; lia.
Qed.
Lemma upto_snd n W dW m : length W = o -> length dW = o -> (m < o)%nat -> (n <= o)%nat ->
  fac (snd (U n (W, dW))) m = if (m <? n)%nat then fac (snd (U o (W, dW))) m else fac dW m.
Proof.
  intros LW LD Hm Hn. destruct (upto_fac n W dW m LW LD Hm) as [-> _]. destruct (upto_fac o W dW m LW LD Hm) as [-> _].
  replace (m <? o)%nat with true by (symmetry; apply Nat.ltb_lt; lia). reflexivity.
Qed.
Lemma upto_fst W dW : length W0 = o -> length W = o -> length dW = o ->
  fst (U o (W, dW)) = map (fun m => madd (fac W0 m) (fac (snd (U o (W, dW))) m)) (seq 0 o).
Proof.
  intros L0 LW LD. apply (list_fac_ext _ _ o).
  - destruct (upto_len o W dW) as [-> _]. auto.
  - rewrite map_length, seq_length. reflexivity.
  - intros m Hm. rewrite (fac_map_seq (fun m => madd (fac W0 m) (fac (snd (U o (W, dW))) m))) by auto. apply (upto_fac o W dW m); auto.
Qed.
End Sweep.

Section Run.
Context (LA : lapack Rnum) (Hsh : svd_shaped (svd LA)) (V : tensor Rnum) (rk : nat).
Let o := order V.
Notation solve := (pinv_solve (svd LA) rk).
Lemma sweep_leaves (lambda ratio : Rnum) W0 W dW : mats_ok V W0 rk -> mats_ok V W rk -> mats_ok V dW rk ->
  fst (pp_sweep solve lambda ratio V W0 rk (W, dW)) = rescaled (perturbed W0 (snd (pp_sweep solve lambda ratio V W0 rk (W, dW)))).
Proof.
  intros H0 HW HD. unfold pp_sweep. pose proof (upto_fst V rk solve lambda ratio W0 W dW (proj1 H0) (proj1 HW) (proj1 HD)) as E.
  destruct (pp_upto solve lambda ratio V W0 rk (order V) (W, dW)) as [A B]. cbn [fst snd] in *. rewrite E. unfold perturbed. rewrite (proj1 H0). reflexivity.
Qed.
(** the modes before n *)
Lemma prefix mp (W0 W G dW : list (tensor Rnum)) Sm (lambda ratio : Rnum) n : (2 <= o <= 31)%nat -> (n <= o)%nat ->
  (neqb lambda n0 = true -> lambda = n0) -> (neqb ratio n1 = true -> ratio = n1) ->
  factors_ok V W0 rk -> factors_ok V W rk -> mats_ok V G rk -> mats_ok V dW rk -> lens Sm = [rk; rk] -> pptab V rk mp W0 ->
  exists Gn Smn, for_ 0 n (PP_mode LA V mp W0 lambda ratio (mscal lambda (mid rk)) (lbuf o)) (W, G, dW, Sm, lbuf o)
    = Ok (fst (pp_upto solve lambda ratio V W0 rk n (W, dW)), Gn, snd (pp_upto solve lambda ratio V W0 rk n (W, dW)), Smn, lbuf o).
Proof.
  intros Ho Hno Hl Hr HW0 HW HG HD HSm Htab. set (U := fun n => pp_upto solve lambda ratio V W0 rk n (W, dW)).
  destruct (for_inv (fun i (st : (list (tensor Rnum) * list (tensor Rnum) * list (tensor Rnum) * tensor Rnum * buf Z)%type) => exists Gi Sm', st = (fst (U i), Gi, snd (U i), Sm', lbuf o) /\ mats_ok V Gi rk /\ lens Sm' = [rk; rk])
     (PP_mode LA V mp W0 lambda ratio (mscal lambda (mid rk)) (lbuf o)) 0 n (W, G, dW, Sm, lbuf o))
     as (st & E & Gi & Sm' & -> & HGi & HS').
  - lia.
  - exists G, Sm. split; [reflexivity|]. split; auto.
  - intros i st Hi (Gi & Sm' & -> & HGi & HS').
    destruct (pp_upto_ok RL V rk LA Hsh lambda ratio W0 W dW i) as [HU1 HU2]; auto; [fold o; lia|].
    assert (E := PP_mode_ok RL V rk LA Hsh mp W0 (fst (U i)) Gi (snd (U i)) Sm' lambda ratio i). fold o in E. rewrite E by (auto; lia). clear E.
    rewrite <- surjective_pairing. unfold U at 1 4. rewrite <- upto_S'. fold (U (S i)).
    eexists. split; [reflexivity|]. eexists _, _. split; [reflexivity|]. split.
    + apply setf_mats; auto; [fold o; lia|]. apply msub_mat', (mmul_mat _ _ _ rk rk); [|apply lhs_mat]. apply HU1. fold o. lia.
    + reflexivity.
  - exists Gi, Sm'. exact E.
Qed.
End Run.
