(** Properties C44 and C47: Khatri-Rao product, low-rank factor updates *)
From Coq Require Import List ZArith QArith Lia Bool Arith Permutation Ring.
From Verif Require Import Base Num Tensor Spec Spec3 Spec10 MCommon MCP MOpt MOptLR PBase PTensor PSum PMttkrp PMat PMatAlg PResid PGrad PSolve PRank POptLR PRank2 PKRP PALS.
Import ListNotations.
Local Close Scope Q_scope.
Local Open Scope num_scope.

(** ** C44.  index: the factors in the order of the product; lens_H: their row counts; H_T: the declared result, of
    one more mode than there are factors, with last length K *)
Definition krp_input {N : num} (W : list (tensor N)) (index lens_H : list nat) (K : nat) (H_T : tensor N) : Prop :=
  (1 <= length index)%nat /\ (length index <= length lens_H)%nat /\
  (forall m, (m < length index)%nat -> (nth m index 0 < length W)%nat /\ is_mat (fac W (nth m index 0%nat)) (nth m lens_H 0%nat) K) /\
  order H_T = S (length index) /\ nth (length index) (lens H_T) 0%nat = K.
Theorem C44_khatri_rao : forall (N : num) (RL : ring_laws N) (W : list (tensor N)) (index lens_H : list nat) (K : nat) (H_T : tensor N),
  krp_input W index lens_H K H_T -> (length index <= 10)%nat ->
  KhatriRaoProduct H_T W (map Some index) (map Some lens_H) = Ok (khatri_rao (map (fac W) index) K).
Proof. intros N RL W ix lh K H (H1 & H2 & H3 & H4 & H5) Hl. apply (krp_ok RL W ix lh K H); auto. Qed.
(** from eleven factors on the letter of the tenth factor is the one of the incoming matrix *)
Theorem C44_eleven_factors_unequal : forall (N : num) (RL : ring_laws N) (W : list (tensor N)) (index lens_H : list nat) (K : nat) (H_T : tensor N),
  krp_input W index lens_H K H_T -> (11 <= length index)%nat -> nth 9 lens_H 0%nat <> nth 10 lens_H 0%nat ->
  KhatriRaoProduct H_T W (map Some index) (map Some lens_H) = Err CtfError.
Proof. intros N RL W ix lh K H (H1 & H2 & H3 & H4 & H5) Hl Hne. apply (krp_unequal RL W ix lh K H); auto. Qed.
Theorem C44_eleven_factors_wrong : forall (N : num) (RL : ring_laws N) (W : list (tensor N)) (index lens_H : list nat) (K : nat) (H_T : tensor N),
  krp_input W index lens_H K H_T -> length index = 11%nat -> nth 9 lens_H 0%nat = nth 10 lens_H 0%nat ->
  exists T, KhatriRaoProduct H_T W (map Some index) (map Some lens_H) = Ok T /\
    lens T = lens (khatri_rao (map (fac W) index) K) /\
    forall x, inb (lens T) x -> nth 9 x 0%nat <> nth 10 x 0%nat -> at_ T x = n0.
Proof.
  intros N RL W ix lh K H (H1 & H2 & H3 & H4 & H5) Hl He. destruct (krp_eleven RL W ix lh K H) as (T & E & El & Hx); auto.
  exists T. split; auto. split; auto. rewrite El. cbn [khatri_rao tabulate lens]. f_equal. rewrite <- Hl.
  apply nth_ext with (d:=0%nat) (d':=0%nat); rewrite !map_length, seq_length; auto.
  intros n Hn. rewrite (nth_map_lt _ _ _ 0%nat) by (rewrite seq_length; auto). rewrite nth_seq by auto.
  rewrite (nth_map_lt _ _ _ tnil) by (rewrite map_length; auto). rewrite (nth_map_lt _ _ _ 0%nat) by auto. symmetry. apply is_mat_nrow with (c:=K). apply H3; auto.
Qed.
Definition kA : tensor Znum := zt [2; 2] [1; 2; 3; 4]%Z.
Definition kB : tensor Znum := zt [1; 2] [5; 6]%Z.
Definition k1 : tensor Znum := zt [2; 1] [1; 1]%Z.
Theorem C44_case :
  krp_input [kA; kB] [1; 0; 0]%nat [1; 2; 2]%nat 2 (zeros [1; 2; 2; 2]) /\
  KhatriRaoProduct (zeros [1; 2; 2; 2]) [kA; kB] (map Some [1; 0; 0]%nat) (map Some [1; 2; 2]%nat) = Ok (zt [1; 2; 2; 2] [5; 10; 10; 20; 54; 72; 72; 96]%Z) /\
  krp_input [k1] (repeat 0%nat 11) (repeat 2%nat 11) 1 (zeros (repeat 2%nat 11 ++ [1%nat])) /\
  at_ (khatri_rao (map (fac [k1]) (repeat 0%nat 11)) 1) (repeat 0%nat 10 ++ [1; 0]%nat) = 1%Z.
Proof.
  split.
  { repeat (split; [cbn; lia|]). split; [|split; reflexivity]. intros m Hm. destruct m as [|[|[|m]]]; [| | |cbn in Hm; lia]; (split; [cbn; lia|split; reflexivity]). }
  split; [vm_compute; reflexivity|]. split.
  { repeat (split; [cbn; lia|]). split; [|split; reflexivity]. intros m Hm. rewrite repeat_length in Hm. do 11 (destruct m as [|m]; [split; [cbn; lia|split; reflexivity]|]). lia. }
  unfold khatri_rao. rewrite at_tabulate by (repeat constructor). vm_compute. reflexivity.
Qed.
Print Assumptions C44_khatri_rao.
Print Assumptions C44_eleven_factors_unequal.
Print Assumptions C44_eleven_factors_wrong.
Print Assumptions C44_case.

(** ** C47.  [random]: None is the plain decomposition, Some seed the randomised one *)
Definition the_trunc {N : num} (LA : lapack N) (random : option nat) (X : tensor N) (k : nat) : tensor N * tensor N * tensor N :=
  match random with Some seed => rsvd (svd LA) (qr_q LA) (rnd LA) seed X k | None => svd LA X k end.
Lemma decomp_ok {N : num} (RL : ring_laws N) (LA : lapack N) X k random r c : low_shaped (svd LA) (qr_q LA) (rnd LA) ->
  is_mat X r c -> (k <= r)%nat -> (k <= c)%nat ->
  decomp LA X k random = Ok (the_trunc LA random X k) /\ let '(U, s, VT) := the_trunc LA random X k in is_mat U r k /\ lens s = [k] /\ wf s /\ is_mat VT k c.
Proof.
  intros Hlow HX Hr Hc. unfold decomp, the_trunc. destruct random as [seed|].
  - apply (randomized_svd_ok RL LA Hlow X seed k r c); auto.
  - split; auto. apply Hlow; auto.
Qed.
Theorem C47_cholesky_update : forall (N : num) (RL : ring_laws N) (LA : lapack N) (M A G : tensor N) (r R k : nat) (random : option nat),
  is_mat M r R -> is_mat A r R -> is_mat G R R -> (k <= r)%nat -> (k <= R)%nat -> low_shaped (svd LA) (qr_q LA) (rnd LA) ->
  let L := cholesky LA G in is_cholesky G L R -> tri_solves (solve_tri LA) L R ->
  exists X, is_mat X r R /\ mmul X (mtrans L) = msub M (mmul A G) /\
  exists U s VT', get_rankR_update_cholesky LA k M A G random = Ok (U, s, VT') /\
    is_mat U r k /\ lens s = [k] /\ is_mat VT' k R /\
    let D := usv k U s VT' in
    (** what the update leaves of the system, and its relation to the truncated decomposition of X *)
    (let '(tU, ts, tVT) := the_trunc LA random X k in mmul D L = usv k tU ts tVT) /\
    msub M (mmul (madd A D) G) = mmul (msub X (mmul D L)) (mtrans L) /\
    (decomposes (the_trunc LA random X k) k X -> mmul (madd A D) G = M).
Proof.
  intros N RL LA M A G r R k random HM HA HG Hr HR Hlow L [HL EG] Ht.
  destruct (chol_update_ok RL LA M A G r R k random HM HA HG HL) as (X & HX & EX & HXd).
  { intros B q HB. apply (Ht B q HB). } { intros B q HB. apply (Ht B q HB). }
  exists X. split; auto. split; [exact EX|]. destruct (decomp_ok RL LA X k random r R Hlow HX Hr HR) as [E1 E2].
  destruct (the_trunc LA random X k) as [[U s] VT]. destruct E2 as (HU & Hs & Hw & HV). destruct (HXd U s VT E1 HV) as (VT' & E3 & HV' & EV').
  exists U, s, VT'. repeat (split; [first [assumption|exact E3]|]). cbv zeta.
  assert (E4 : mmul (usv k U s VT') L = usv k U s VT) by (rewrite (usv_mul RL U s VT' L k r R R) by auto; fold L in EV'; rewrite EV'; auto).
  split; auto. split.
  - rewrite E4. apply (low_rank_leaves RL A L G M X U s VT VT' r R k); auto.
  - intros Hd. apply (full_rank_solves RL A L G M X U s VT VT' r R k); auto.
Qed.
(** with an exact decomposition of the projected matrix the randomised decomposition is the projection of X on the
    columns of its sketch; a square orthogonal sketch loses nothing *)
Theorem C47_randomised : forall (N : num) (RL : ring_laws N) (LA : lapack N) (X : tensor N) (r R k seed : nat),
  is_mat X r R -> (k <= r)%nat -> (k <= R)%nat -> low_shaped (svd LA) (qr_q LA) (rnd LA) ->
  exists Q, is_mat Q R k /\
    (decomposes (svd LA (mmul X Q) k) k (mmul X Q) -> decomposes (rsvd (svd LA) (qr_q LA) (rnd LA) seed X k) k (mmul (mmul X Q) (mtrans Q))) /\
    (decomposes (svd LA (mmul X Q) k) k (mmul X Q) -> mmul Q (mtrans Q) = mid R -> decomposes (rsvd (svd LA) (qr_q LA) (rnd LA) seed X k) k X).
Proof.
  intros N RL LA X r R k seed HX Hr HR Hlow.
  set (Q := qr_q LA (mmul (mmul (mtrans X) X) (qr_q LA (rnd LA seed [R; k])))).
  assert (HX' := mtrans_mat X r R HX).
  assert (HQ : is_mat Q R k).
  { destruct Hlow as (H1 & H2 & H3). apply H2; auto. eapply mmul_mat; [eapply mmul_mat; eauto|]. apply H2; auto. }
  exists Q. split; auto. unfold decomposes, rsvd. rewrite (is_mat_ncol _ _ _ HX). fold Q.
  assert (HB : is_mat (mmul X Q) r k) by (eapply mmul_mat; eauto).
  destruct Hlow as (H1 & _). specialize (H1 (mmul X Q) r k k HB Hr ltac:(lia)). destruct (svd LA (mmul X Q) k) as [[U s] VT].
  destruct H1 as (HU & Hs & Hw & HV). assert (HQt := mtrans_mat Q R k HQ).
  assert (E : mmul (mmul U (mdiag k (fun i => at_ s [i]))) (mmul VT (mtrans Q)) = mmul (usv k U s VT) (mtrans Q)).
  { rewrite (usv_mul RL U s VT (mtrans Q) k r k R) by auto. reflexivity. }
  rewrite E. unfold usv. split; intros Ed; rewrite Ed; auto. intros EQ. rewrite (mmul_assoc RL X Q _ r R k R), EQ by auto. apply (mmul_id_r RL X r R); auto.
Qed.
(** the variant through the eigen-decomposition of the system matrix G = U diag(s) U^T *)
Theorem C47_svd_update : forall (N : num) (RL : ring_laws N) (LA : lapack N) (M A G U s : tensor N) (r R k : nat) (random : option nat),
  is_mat M r R -> is_mat A r R -> is_mat G R R -> (k <= r)%nat -> (k <= R)%nat -> low_shaped (svd LA) (qr_q LA) (rnd LA) ->
  svd LA G R = (U, s, mtrans U) -> is_svd G U s (mtrans U) R ->
  (forall i, (i < R)%nat -> nsqrt (at_ s [i]) * nsqrt (at_ s [i]) = at_ s [i] /\ nsqrt (at_ s [i]) * (n1 / nsqrt (at_ s [i])) = n1) ->
  let L := mmul U (mdiag R (fun i => nsqrt (at_ s [i]))) in
  is_mat L R R /\ G = mmul L (mtrans L) /\
  exists X, is_mat X r R /\ mmul X (mtrans L) = msub M (mmul A G) /\
  exists xU xs xVT, get_rankR_update_svd LA k M A G random = Ok (xU, xs, xVT) /\
    is_mat xU r k /\ lens xs = [k] /\ is_mat xVT k R /\
    let D := usv k xU xs xVT in
    (let '(tU, ts, tVT) := the_trunc LA random X k in mmul D L = usv k tU ts tVT) /\
    msub M (mmul (madd A D) G) = mmul (msub X (mmul D L)) (mtrans L) /\
    (decomposes (the_trunc LA random X k) k X -> mmul (madd A D) G = M).
Proof.
  intros N RL LA M A G U s r R k random HM HA HG Hr HR Hlow E Hsvd Hsq L.
  destruct (svd_update_ok RL LA M A G r R k random U s (mtrans U) HM HA HG E Hsvd eq_refl Hsq) as (HL & EG & X & HX & EX & HXd).
  change (sq_root U s R) with L in *. split; auto. split; auto. exists X. split; auto. split; [exact EX|].
  destruct (decomp_ok RL LA X k random r R Hlow HX Hr HR) as [E1 E2].
  destruct (the_trunc LA random X k) as [[xU xs] VT]. destruct E2 as (HU & Hs & Hw & HV). destruct (HXd xU xs VT E1 HV) as (VT' & E3 & HV' & EV').
  exists xU, xs, VT'. repeat (split; [first [assumption|exact E3]|]). cbv zeta.
  assert (E4 : mmul (usv k xU xs VT') L = usv k xU xs VT) by (rewrite (usv_mul RL xU xs VT' L k r R R) by auto; rewrite EV'; auto).
  split; auto. split.
  - rewrite E4. apply (low_rank_leaves RL A L G M X xU xs VT VT' r R k); auto.
  - intros Hd. apply (full_rank_solves RL A L G M X xU xs VT VT' r R k); auto.
Qed.
(** optimality: when the truncated decomposition is a best rank-k approximation, no other rank-k change of factor n
    gives a smaller squared residual *)
Theorem C47_best_update : forall (N : num) (RL : ring_laws N) (OL : ord_laws N) (LA : lapack N) (V : tensor N) (W : list (tensor N)) (R n k : nat) (random : option nat),
  factors_ok V W R -> (n < order V)%nat -> (k <= nth n (lens V) 0)%nat -> (k <= R)%nat -> low_shaped (svd LA) (qr_q LA) (rnd LA) ->
  forall A, is_mat A (nth n (lens V) 0%nat) R ->
  let L := cholesky LA (hgram W n R) in is_cholesky (hgram W n R) L R -> tri_solves (solve_tri LA) L R ->
  (forall X, is_mat X (nth n (lens V) 0%nat) R -> mmul X (mtrans L) = msub (mttkrp V W n R) (mmul A (hgram W n R)) ->
     let '(tU, ts, tVT) := the_trunc LA random X k in best_rank (nth n (lens V) 0%nat) R k X (usv k tU ts tVT)) ->
  exists U s VT, get_rankR_update_cholesky LA k (mttkrp V W n R) A (hgram W n R) random = Ok (U, s, VT) /\
  forall P Q, is_mat P (nth n (lens V) 0%nat) k -> is_mat Q k R ->
    nle (residual2 V (setf W n (madd A (usv k U s VT))) R) (residual2 V (setf W n (madd A (mmul P Q))) R).
Proof.
  intros N RL OL LA V W R n k random HW Hn Hr HR Hlow A HA L HC Ht Hb.
  assert (HM := mttkrp_mat V R W n). assert (HG := hgram_mat R W n).
  destruct (C47_cholesky_update N RL LA (mttkrp V W n R) A (hgram W n R) (nth n (lens V) 0%nat) R k random HM HA HG Hr HR Hlow HC Ht)
    as (X & HX & EX & U & s & VT & E & HU & Hs & HV & ED & _).
  exists U, s, VT. split; auto. intros P Q HP HQ. fold L in EX, ED. destruct HC as [HL EG].
  specialize (Hb X HX EX). destruct (the_trunc LA random X k) as [[tU ts] tVT].
  assert (HPQ : is_mat (mmul P Q) (nth n (lens V) 0%nat) R) by (eapply mmul_mat; eauto).
  destruct (usv_mk RL U s VT k _ R HU HV) as [HD _].
  rewrite !(resid_quad RL V W R n) by (auto; apply madd_mat; auto).
  rewrite !(update_quad RL A L (hgram W n R) (mttkrp V W n R) X (nth n (lens V) 0%nat) R) by auto.
  rewrite ED. rewrite (mmul_assoc RL P Q L (nth n (lens V) 0%nat) k R R) by auto.
  specialize (Hb P (mmul Q L) HP ltac:(eapply mmul_mat; eauto)).
  set (c0 := bigsum (all_idx (lens V)) (fun x => at_ V x * at_ V x)). set (q0 := quad _ R (hgram W n R) (mttkrp V W n R) A).
  set (x0 := minner _ R X X). set (d1 := dist2 _ R X (usv k tU ts tVT)) in *. set (d2 := dist2 _ R X (mmul P (mmul Q L))) in *.
  rewrite (shift_eq RL c0 q0 x0 d1 d2).
  apply (le_add_r OL); auto.
Qed.
(** a concrete case: V = diag(3,1), second factor the identity, rank-1 update of a zero first factor; the decomposition
    returns the first column, a best rank-1 approximation, and the update is diag(3,0) *)
Definition rLA : lapack Znum :=
  @mkLapack Znum (fun X k => (tabulate [nrow X; k] (fun x => at_ X x), tabulate [k] (fun _ => 1%Z : Znum), tabulate [k; ncol X] (fun x => (if nth 0 x 0 =? nth 1 x 0 then 1%Z else 0%Z)%nat : Znum)))
   (fun A => A) (fun B _ _ _ _ => B) (fun X => X) (fun seed ls => tabulate ls (fun x => Z.of_nat (seed + nth 0 x 0 + 1) : Znum)).
Definition rV : tensor Znum := zt [2; 2] [3; 0; 0; 1]%Z.
Definition rI : tensor Znum := zt [2; 2] [1; 0; 0; 1]%Z.
Definition rZ : tensor Znum := zt [2; 2] [0; 0; 0; 0]%Z.
Lemma mat22 (X : tensor Znum) : is_mat X 2 2 -> exists a b c d : Z, X = zt [2; 2] [a; b; c; d].
Proof.
  destruct X as [l d]. intros [E H]. unfold wf in H. cbn [lens data] in *. subst l. cbn in H.
  destruct d as [|x1 [|x2 [|x3 [|x4 [|]]]]]; try discriminate. exists x1, x2, x3, x4. reflexivity.
Qed.
Theorem C47_case :
  factors_ok rV [rZ; rI] 2 /\ low_shaped (svd rLA) (qr_q rLA) (rnd rLA) /\
  (let L := cholesky rLA (hgram [rZ; rI] 0 2) in is_cholesky (hgram [rZ; rI] 0 2) L 2 /\ tri_solves (solve_tri rLA) L 2 /\
   (forall X, is_mat X 2 2 -> mmul X (mtrans L) = msub (mttkrp rV [rZ; rI] 0 2) (mmul rZ (hgram [rZ; rI] 0 2)) ->
     let '(tU, ts, tVT) := the_trunc rLA None X 1 in best_rank 2 2 1 X (usv 1 tU ts tVT)) /\
   (forall X, is_mat X 2 2 -> decomposes (the_trunc rLA None X 2) 2 X)) /\
  get_rankR_update_cholesky rLA 1 (mttkrp rV [rZ; rI] 0 2) rZ (hgram [rZ; rI] 0 2) None
    = Ok (zt [2; 1] [3; 0]%Z, zt [1] [1%Z], zt [1; 2] [1; 0]%Z) /\
  residual2 rV [usv 1 (zt [2; 1] [3; 0]%Z) (zt [1] [1%Z]) (zt [1; 2] [1; 0]%Z); rI] 2 = 1%Z.
Proof.
  split. { split; [reflexivity|]. split; [reflexivity|]. intros m Hm. destruct m as [|[|m]]; [split; reflexivity|split; reflexivity|cbn in Hm; lia]. }
  split.
  { split; [|split].
    - intros X r c k HX H1 H2. cbn. rewrite (is_mat_nrow _ _ _ HX), (is_mat_ncol _ _ _ HX). repeat split; try reflexivity; apply tabulate_wf.
    - intros X r c HX _. exact HX.
    - intros seed r c. split; [reflexivity|apply tabulate_wf]. }
  assert (EG : hgram [rZ; rI] 0 2 = rI) by (vm_compute; reflexivity). cbv zeta. rewrite EG.
  assert (HI : is_mat rI 2 2) by (split; reflexivity).
  assert (EI : rI = mid 2) by (vm_compute; reflexivity). assert (EIt : mtrans rI = mid 2) by (vm_compute; reflexivity).
  split.
  { split; [split; [split; reflexivity|vm_compute; reflexivity]|]. split.
    { intros B q HB. cbn [cholesky solve_tri rLA]. rewrite EIt, EI. split; (split; [auto|apply (mmul_id_r Znum_ring B q 2); auto]). }
    split.
    - intros X HX E. cbn [cholesky rLA] in E. rewrite EIt, (mmul_id_r Znum_ring X 2 2) in E by auto. subst X.
      replace (msub (mttkrp rV [rZ; rI] 0 2) (mmul rZ rI)) with rV by (vm_compute; reflexivity).
      cbn [the_trunc svd rLA]. intros P Q HP HQ.
      destruct P as [l d]. destruct HP as [E H]. unfold wf in H. cbn [lens data] in *. subst l. cbn in H. destruct d as [|p1 [|p2 [|]]]; try discriminate.
      destruct Q as [l d]. destruct HQ as [E H']. unfold wf in H'. cbn [lens data] in *. subst l. cbn in H'. destruct d as [|q1 [|q2 [|]]]; try discriminate.
      unfold nle. apply Z.ltb_ge. change (@nsub Znum) with Z.sub.
      match goal with |- Z.le _ (Z.sub ?x ?y) => replace x with ((3 - p1 * q1) * (3 - p1 * q1) + p1 * q2 * (p1 * q2) + (p2 * q1 * (p2 * q1)) + (1 - p2 * q2) * (1 - p2 * q2))%Z; [replace y with 1%Z by (vm_compute; reflexivity)|] end.
      2:{ unfold dist2, minner. cbn -[Z.add Z.mul Z.sub]. ring. }
      cbn [n0 Znum].
      set (a := (p1 * q1)%Z). set (b := (p1 * q2)%Z). set (c := (p2 * q1)%Z). set (d := (p2 * q2)%Z).
      assert (Hd : (a * d = b * c)%Z) by (unfold a, b, c, d; ring). clearbody a b c d.
      assert (H1 : (0 <= (b - c) * (b - c))%Z) by apply Z.square_nonneg. assert (H2 : (0 <= (b + c) * (b + c))%Z) by apply Z.square_nonneg.
      destruct (Z_le_gt_dec 0 d).
      + assert (H0 := Z.square_nonneg (a + d - 3)). nia.
      + assert (H0 := Z.square_nonneg (a - d - 3)). nia.
    - intros X HX. destruct (mat22 X HX) as (a & b & c & d & ->). unfold decomposes, the_trunc. cbn -[Z.add Z.mul].
      unfold mmul, tabulate, zt. cbn -[Z.add Z.mul]. apply (f_equal (@mkT Znum [2; 2]%nat)). repeat f_equal; ring. }
  split; vm_compute; reflexivity.
Qed.
Print Assumptions C47_cholesky_update.
Print Assumptions C47_randomised.
Print Assumptions C47_svd_update.
Print Assumptions C47_best_update.
Print Assumptions C47_case.
