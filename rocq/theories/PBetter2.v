(** Over the reals: the objective in the two phases of alsCP_PP *)
From Coq Require Import List ZArith QArith Lia Bool Arith Reals Lra.
From Verif Require Import Base Num NumR Tensor Spec Spec2 Spec3 Spec10 Spec11 Spec12 Spec18 Spec19 Spec20 Spec22 Spec25 MCommon MCP PBase PTensor PSum PMttkrp PMat PMatAlg PResid PGrad PRank PNormalize PALS PMono PMono2 PPPDriver PCPD PDrivers2 PTuckMono
  PConv PConv2 PConv3 PConv4 PConv5 PErr PErr2 PPP PPPSweep PApprox PApprox2 PApprox3 PDriverRef PropErr PropErr3 PBetter.
Import ListNotations.
Local Close Scope Q_scope.
Local Open Scope R_scope.
Local Notation RL := Rnum_ring.
Local Notation bs := (bigsum (N:=Rnum)).
Local Notation bp := (bigprod (N:=Rnum)).

Section Phases.
Context (LA : lapack Rnum) (V : tensor Rnum) (rk : nat) (lambda : R).
Hypothesis Hsh : svd_shaped (svd LA).
Hypothesis Hsv : svd_works (svd LA) rk.
Hypothesis Hl : 0 < lambda.
Notation solve := (pinv_solve (svd LA) rk).
Notation obj W := (objective (lambda : Rnum) V W rk).
Lemma resid_below W : factors_ok V W rk -> resid_norm V W rk * resid_norm V W rk <= obj W.
Proof.
  intros HW. rewrite (resid_norm_sqrt V W rk HW). rewrite sqrt_sqrt by apply residual2_nonneg. rewrite objective_split.
  match goal with |- ?a <= ?a + ?b => assert (K : 0 <= b); [apply Rmult_le_pos; [lra|]; apply bigsum_nonneg; intros; apply fro2_nonneg|set (aa := a) in *; set (bb := b) in *] end.
  change (car Rnum) with R in *. clearbody aa bb. lra.
Qed.
Context (clock : nat -> R) (rank0 : bool) (tol tol_init limit : R) (maxiter resprint : Z).
(** the rows of a log are of phase ph, and satisfy P of iteration and residual *)
Definition rows_are (ph : nat) (P : Z -> R -> Prop) (l : list (row (N:=Rnum))) : Prop :=
  forall r, In r l -> exists d it g t e s, r = Row (N:=Rnum) d it g t ph e s /\ P it e.
Lemma rows_app ph P l1 l2 : rows_are ph P l1 -> rows_are ph P l2 -> rows_are ph P (l1 ++ l2).
Proof. intros H1 H2 r Hr. apply in_app_iff in Hr as [Hr|Hr]; auto. Qed.
Lemma rows_mono ph (P Q : Z -> R -> Prop) l : (forall it e, P it e -> Q it e) -> rows_are ph P l -> rows_are ph Q l.
Proof. intros H K r Hr. destruct (K r Hr) as (d & it & g & t & e & s & E & Hp). do 6 eexists. split; [exact E|auto]. Qed.
Lemma finished_keeps g (x : io (N:=Rnum)) : rows (snd (finished (N:=Rnum) clock g tol limit x)) = rows x.
Proof. unfold finished. destruct (nltb _ _); reflexivity. Qed.
Lemma exact_check_is it p : exists l, let r := exact_check (N:=Rnum) clock rank0 V rk tol limit it p in
  rows (pio (snd r)) = rows (pio p) ++ l /\ pW (snd r) = pW p /\ pdW (snd r) = pdW p /\ rows_are 0 (fun i e => i = it /\ e = resid_norm V (pW p) rk) l.
Proof.
  unfold exact_check. unfold timed. cbv zeta.
  match goal with |- context [@finished Rnum clock ?g tol limit ?x] => pose proof (finished_keeps g x) as K; destruct (@finished Rnum clock g tol limit x) as [stop y] end. cbn [snd] in K. cbn [snd pio pW pdW]. rewrite K. unfold written. destruct rank0; cbn [rows].
  - eexists. split; [reflexivity|]. split; [reflexivity|]. split; [reflexivity|]. intros r [<-|[]]. do 6 eexists. split; [reflexivity|auto].
  - exists []. rewrite app_nil_r. split; [reflexivity|]. split; [reflexivity|]. split; [reflexivity|]. intros r [].
Qed.
Notation ephase := (exact_phase (N:=Rnum) clock rank0 V rk tol tol_init limit maxiter resprint (exact_sweep solve (lambda : Rnum) V rk) (als_grads solve (lambda : Rnum) V (zmats V rk) rk)).
Definition balanced (W : list (tensor Rnum)) : Prop := exists a, 0 < a /\ forall m, (m < order V)%nat -> norm2 (fac W m) = a.
Lemma zmats_zero : zero_mats V (zmats V rk) rk.
Proof.
  intros n i r Hn Hi Hr. unfold zmats. rewrite (fac_map_seq (fun m => zeros [nth m (lens V) 0%nat; rk])) by auto. unfold zeros, el. rewrite at_tabulate by (apply inb2; auto). reflexivity.
Qed.
Lemma exact_phase_better : (1 <= order V)%nat -> forall n it prev p, factors_ok V (pW p) rk -> better_than_zero lambda V (pW p) rk ->
  let q := snd (ephase n it prev p) in
  obj (pW q) <= obj (pW p) /\ better_than_zero lambda V (pW q) rk /\ (pW q = pW p \/ balanced (pW q)) /\
  exists l, rows (pio q) = rows (pio p) ++ l /\ rows_are 0 (fun i e => (it <= i)%Z /\ e * e <= obj (pW p)) l.
Proof.
  intros H1. induction n as [|n IH]; intros it prev p HW Hb; cbv zeta.
  { cbn [exact_phase snd]. split; [apply Rle_refl|]. split; [exact Hb|]. split; [auto|]. exists []. rewrite app_nil_r. split; [reflexivity|]. intros r []. }
  cbn [exact_phase].
  assert (C : exists l, let r := (if check_due maxiter resprint it then exact_check (N:=Rnum) clock rank0 V rk tol limit it p else (false, p)) in
    rows (pio (snd r)) = rows (pio p) ++ l /\ pW (snd r) = pW p /\ pdW (snd r) = pdW p /\ rows_are 0 (fun i e => (it <= i)%Z /\ e * e <= obj (pW p)) l).
  { destruct (check_due maxiter resprint it).
    - destruct (exact_check_is it p) as (l & E1 & E2 & E3 & E4). exists l. split; [exact E1|]. split; [exact E2|]. split; [exact E3|].
      eapply rows_mono; [|exact E4]. cbv beta. intros i e [-> ->]. split; [lia|]. apply resid_below. exact HW.
    - exists []. cbv zeta. cbn [snd]. rewrite app_nil_r. split; [reflexivity|]. split; [reflexivity|]. split; [reflexivity|]. intros r []. }
  destruct C as (l & C1 & C2 & C3 & C4). destruct (if check_due maxiter resprint it then _ else _) as [stop q]. cbv zeta in *. cbn [snd] in C1, C2, C3.
  destruct stop; [cbn [snd]; rewrite C2; split; [apply Rle_refl|]; split; [exact Hb|]; split; [auto|]; exists l; auto|].
  rewrite C2. destruct (exact_one LA V rk lambda Hsh Hsv Hl (zmats V rk) (pW p) zmats_zero HW H1 Hb) as (S1 & S2 & S3 & _ & S4).
  fold (exact_sweep solve (lambda : Rnum) V rk (pW p)) in S1, S2, S3, S4. set (W1 := exact_sweep solve (lambda : Rnum) V rk (pW p)) in *. cbn [pW pdW pio ppn].
  destruct (settled _ _ _ _).
  { cbn [snd pW pio]. split; [exact S2|]. split; [exact S3|]. split; [right; exact S4|]. exists l. auto. }
  match goal with |- context [ephase n (it + 1)%Z W1 ?p1] => destruct (IH (it + 1)%Z W1 p1 S1 S3) as (I1 & I2 & I3 & l2 & I4 & I5); set (r := snd (ephase n (it + 1)%Z W1 p1)) in * end.
  cbn [pW pio] in *. split; [eapply Rle_trans; eauto|]. split; [exact I2|]. split.
  { right. destruct I3 as [->|I3]; [exact S4|exact I3]. }
  exists (l ++ l2). split; [rewrite I4, C1, app_assoc; reflexivity|]. apply rows_app; [exact C4|].
  eapply rows_mono; [|exact I5]. cbv beta. intros i e [A B]. split; [lia|]. eapply Rle_trans; eauto.
Qed.

(** ** the approximate phase *)
Section Approx.
Context (W0 : list (tensor Rnum)) (a : R) (J : nat).
Hypothesis Ho : (3 <= order V <= 9)%nat.
Hypothesis HW0 : factors_ok V W0 rk.
Hypothesis Ha : 0 < a.
Hypothesis HN : forall m, (m < order V)%nat -> norm2 (fac W0 m) = a.
Hypothesis Hnz : pp_stays_nonzero (svd LA) lambda V W0 rk J.
Hypothesis Hti : 0 <= tol_init < / 2.
Notation after j := (pp_after (svd LA) lambda V W0 rk j).
Notation far j := (too_far (N:=Rnum) V (tol_init : Rnum) (fst (after j)) (snd (after j))).
Lemma after_S j : after (S j) = pp_sweep solve (lambda : Rnum) (1 : Rnum) V W0 rk (after j).
Proof. reflexivity. Qed.
Lemma after_ok j : factors_ok V (fst (after j)) rk /\ mats_ok V (snd (after j)) rk.
Proof.
  induction j as [|j [I1 I2]]; [split; [exact HW0|apply zmats_mats]|]. rewrite after_S. destruct (after j) as [W D]. cbn [fst snd] in *.
  split; [apply (pp_sweep_ok_mats RL LA V rk Hsh); auto|]. rewrite snd_sweep.
  apply (pp_upto_ok RL V rk LA Hsh (lambda : Rnum) (1 : Rnum) W0 W D (order V) HW0 I1 I2 (le_n _)).
Qed.
Lemma after_rescaled j : fst (after (S j)) = rescaled (perturbed W0 (snd (after (S j)))).
Proof.
  destruct (after_ok j) as [H1 H2]. rewrite after_S. destruct (after j) as [W D]. cbn [fst snd] in *. rewrite snd_sweep.
  unfold pp_sweep. pose proof (final_fac LA V rk (lambda : Rnum) (1 : Rnum) W0 W D HW0 H1 H2 ltac:(lia)) as Q.
  pose proof (pp_upto_ok RL V rk LA Hsh (lambda : Rnum) (1 : Rnum) W0 W D (order V) HW0 H1 H2 (le_n _)) as [Q1 _].
  destruct (pp_upto solve (lambda : Rnum) (1 : Rnum) V W0 rk (order V) (W, D)) as [W' D']. cbn [fst snd] in *. f_equal.
  apply (list_fac_ext _ _ (order V)); [apply Q1|unfold perturbed; rewrite map_length, seq_length; apply HW0|]. intros m Hm. rewrite Q by auto.
  unfold perturbed. destruct HW0 as (_ & -> & _). symmetry. apply (fac_map_seq (fun q => madd (fac W0 q) (fac D' q))). auto.
Qed.
Lemma h_ok : 0 <= tol_init / (1 - tol_init) < 1.
Proof.
  split; [apply Rmult_le_pos; [lra|left; apply Rinv_0_lt_compat; lra]|]. apply (Rmult_lt_reg_r (1 - tol_init)); [lra|]. unfold Rdiv. rewrite Rmult_assoc, Rinv_l by lra. lra.
Qed.
Lemma after_small j : (j <= J)%nat -> far j = false -> forall m, (m < order V)%nat -> norm2 (fac (snd (after j)) m) <= tol_init / (1 - tol_init) * a.
Proof.
  intros HJ Hf m Hm. destruct j as [|j].
  - change (snd (after 0)) with (zmats V rk). rewrite (zmats_norm V rk m Hm). pose proof h_ok. apply Rmult_le_pos; lra.
  - rewrite after_rescaled in Hf. apply (guard V rk a tol_init) with (W0 := W0); auto; try lia; try lra; [apply factors_mats; auto|apply after_ok].
Qed.
Lemma far_0 : far 0 = false.
Proof.
  change (snd (after 0)) with (zmats V rk). change (fst (after 0)) with W0. unfold too_far. apply not_true_is_false. intros E. apply existsb_exists in E as (m & Hm & E). apply in_seq in Hm.
  unfold rel_change in E. rewrite (zmats_norm V rk m) in E by lia. assert (L : tol_init < Rabs (0 / norm2 (fac W0 m))).
  { match type of E with _ = true => idtac end. change (Rltb tol_init (Rabs (0 / norm2 (fac W0 m))) = true) in E. revert E. destruct (Rltb_spec tol_init (Rabs (0 / norm2 (fac W0 m)))) as [L|L]; [auto|intros Hx; discriminate Hx]. }
  unfold Rdiv in L. rewrite Rmult_0_l, Rabs_R0 in L. lra.
Qed.
Lemma after_step j : (S j <= J)%nat -> far j = false -> far (S j) = false -> obj (fst (after (S j))) <= obj (fst (after j)) + pp_loss V lambda a tol_init.
Proof.
  intros HJ F1 F2. pose proof (after_small j ltac:(lia) F1) as HB. pose proof (after_small (S j) HJ F2) as HB'. destruct (after_ok j) as [H1 H2].
  assert (NZ := fun m => Hnz (S j) m HJ). pose proof (lens_of_norm V W0 _ rk HW0 (fun m => Hnz 0%nat m ltac:(lia))) as Hlen.
  assert (Hcase : j = 0%nat \/ fst (after j) = rescaled (perturbed W0 (snd (after j)))) by (destruct j; [auto|right; apply after_rescaled]).
  assert (Hz : j = 0%nat -> fst (after j) = W0 /\ snd (after j) = zmats V rk) by (intros ->; auto).
  rewrite after_S in *. destruct (after j) as [W D]. cbn [fst snd] in *. set (h := tol_init / (1 - tol_init)) in *. pose proof h_ok as Hh. fold h in Hh.
  rewrite snd_sweep in HB', NZ.
  assert (Hv : forall n, (n < order V)%nat -> svd_valid (svd LA) (als_lhs (lambda : Rnum) (fst (pp_upto solve (lambda : Rnum) (1 : Rnum) V W0 rk n (W, D))) rk n) rk).
  { intros n Hn. apply (works_valid LA V rk lambda Hsv Hl); auto. apply (pp_upto_ok RL V rk LA Hsh (lambda : Rnum) (1 : Rnum) W0 W D n HW0 H1 H2 ltac:(lia)). }
  pose proof (sweep_objective LA Hsh V rk lambda 1 W0 W D Hl ltac:(lra) HW0 H1 H2 (or_introl eq_refl) Hlen Hv ltac:(lia)) as H.
  eapply Rle_trans; [apply H|].
  { intros m Hm. rewrite (final_fac LA V rk (lambda : Rnum) (1 : Rnum) W0 W D) by (auto; lia). apply NZ. auto. }
  apply Rplus_le_compat_l. rewrite Rmult_1_l. unfold pp_loss, Rdiv. apply Rmult_le_compat_r; [left; apply Rinv_0_lt_compat; lra|].
  change (tol_init * / (1 - tol_init)) with h. set (c := norm2 V * (a ^ (order V - 1) * pp_gap (order V - 1) h)).
  eapply Rle_trans; [apply (bs_le _ _ (fun _ => c ^ 2))|rewrite bs_const, seq_length; apply Rle_refl].
  intros n Hn. apply in_seq in Hn.
  assert (K : mode_error LA V rk lambda 1 W0 W D n <= c).
  { destruct Hcase as [Hj|EW].
    - destruct (Hz Hj) as [E1 E2]. eapply Rle_trans; [apply (first_error LA Hsh V rk lambda 1 W0 W D HW0 H1 H2 ltac:(lia) n E1 E2 ltac:(lia))|].
      unfold c. apply Rmult_le_compat_l; [apply norm2_pos|].
      eapply Rle_trans; [apply (second_order_mono _ _ (fun _ => a) _ (fun m => h * a))|].
      + apply others_nodup.
      + intros m Hm. apply others_in in Hm as [Hm _]. rewrite (HN m Hm). split; [lra|apply Rle_refl].
      + intros m Hm. apply others_in in Hm as [Hm _]. split; [apply norm2_pos|]. apply HB'. auto.
      + rewrite (second_order_scaled (others n (order V)) (fun _ => a) h) by apply others_nodup. rewrite bp_const, others_length by lia.
        apply Rmult_le_compat_l; [apply pow_le; lra|]. eapply Rle_trans; [apply binomial_tail; lra|]. unfold pp_gap.
        assert (P : 0 <= (1 + h) ^ (order V - 1) * (((1 + h) / (1 - h)) ^ (order V - 1) - 1)).
        { apply Rmult_le_pos; [apply pow_le; lra|]. assert (1 <= ((1 + h) / (1 - h)) ^ (order V - 1)); [|lra]. apply pow_R1_Rle.
          apply (Rmult_le_reg_r (1 - h)); [lra|]. unfold Rdiv. rewrite Rmult_assoc, Rinv_l by lra. lra. }
        lra.
    - apply (later_error LA Hsh V rk lambda 1 W0 W D HW0 H1 H2 ltac:(lia) a h Ha Hh HN n EW ltac:(lia) HB). exact HB'. }
  assert (K0 : 0 <= mode_error LA V rk lambda 1 W0 W D n) by apply norm2_pos. rewrite <- Rsqr_pow2. apply Rsqr_incr_1; auto. eapply Rle_trans; eauto.
Qed.
Lemma loss_pos : 0 <= pp_loss V lambda a tol_init.
Proof. unfold pp_loss. apply Rmult_le_pos; [|left; apply Rinv_0_lt_compat; lra]. apply Rmult_le_pos; [apply pos_INR|]. rewrite <- Rsqr_pow2. apply Rle_0_sqr. Qed.
Lemma approx_check_is it first p : exists l, let r := approx_check (N:=Rnum) clock rank0 V rk tol limit maxiter false it first p in
  rows (pio (snd r)) = rows (pio p) ++ l /\ pW (snd r) = pW p /\ pdW (snd r) = pdW p /\ rows_are 1 (fun i e => i = it /\ e = resid_norm V (pW p) rk) l.
Proof.
  unfold approx_check. unfold timed. cbv zeta. cbn [andb negb].
  match goal with |- context [@finished Rnum clock ?g tol limit ?x] => pose proof (finished_keeps g x) as K; destruct (@finished Rnum clock g tol limit x) as [stop y] end.
  cbn [snd] in K. cbn [snd pio pW pdW]. rewrite K. unfold written. destruct rank0; cbn [rows].
  - eexists. split; [reflexivity|]. split; [reflexivity|]. split; [reflexivity|]. intros r [<-|[]]. do 6 eexists. split; [reflexivity|auto].
  - exists []. rewrite app_nil_r. split; [reflexivity|]. split; [reflexivity|]. split; [reflexivity|]. intros r [].
Qed.
Notation L := (pp_loss V lambda a tol_init).
Notation aloop := (approx_loop (N:=Rnum) clock rank0 V rk tol tol_init limit maxiter resprint false (pp_step_all solve (lambda : Rnum) (1 : Rnum) V rk W0)).
Lemma approx_loop_better : forall n k it first (s : unit * pp_state (N:=Rnum)), (k <= 15)%nat -> (Nat.min 15 (k + n) <= J)%nat -> (pW (snd s), pdW (snd s)) = after k ->
  (far k = false -> obj (fst (after k)) <= obj W0 + INR k * L) ->
  let r := aloop n k it first s in
  exists j l, fst r = (it + Z.of_nat j)%Z /\ (k + j <= 15)%nat /\ (pW (snd r), pdW (snd r)) = after (k + j) /\
    (far (k + j) = false -> obj (fst (after (k + j))) <= obj W0 + INR (k + j) * L) /\
    rows (pio (snd r)) = rows (pio (snd s)) ++ l /\ rows_are 1 (fun i e => (it <= i)%Z /\ e * e <= obj W0 + (INR k + IZR (i - it)) * L) l.
Proof.
  induction n as [|n IH]; intros k it first s Hk HJ HS HB; cbv zeta; cbn [approx_loop].
  { exists 0%nat, []. cbn [fst snd]. rewrite Z.add_0_r, Nat.add_0_r, app_nil_r. split; [reflexivity|]. split; [exact Hk|]. split; [exact HS|]. split; [exact HB|]. split; [reflexivity|intros r []]. }
  cbn [negb andb].
  destruct (negb (k =? 0)%nat && _) eqn:El.
  { exists 0%nat, []. cbn [fst snd]. rewrite Z.add_0_r, Nat.add_0_r, app_nil_r. split; [reflexivity|]. split; [exact Hk|]. split; [exact HS|]. split; [exact HB|]. split; [reflexivity|intros r []]. }
  assert (ES : pW (snd s) = fst (after k) /\ pdW (snd s) = snd (after k)) by (rewrite <- HS; auto). destruct ES as [EW ED].
  assert (F : far k = false /\ (k < 15)%nat).
  { destruct (Nat.eqb_spec k 0) as [->|Hk0]; [split; [apply far_0; auto|lia]|]. cbn [negb andb] in El. apply orb_false_iff in El as [El1 El2]. rewrite EW, ED in El2. split; [exact El2|].
    apply Nat.eqb_neq in El1. destruct (Nat.eq_dec k 15) as [->|]; [exfalso; apply El1; reflexivity|lia]. }
  destruct F as [F Hk15]. specialize (HB F). destruct (after_ok k) as [HWk _].
  assert (Hrow : resid_norm V (fst (after k)) rk * resid_norm V (fst (after k)) rk <= obj W0 + INR k * L).
  { eapply Rle_trans; [apply resid_below; exact HWk|exact HB]. }
  assert (C : exists l, let r := (if check_due maxiter resprint it || (k =? 0)%nat then approx_check (N:=Rnum) clock rank0 V rk tol limit maxiter false it first (snd s) else (false, first, snd s)) in
    rows (pio (snd r)) = rows (pio (snd s)) ++ l /\ pW (snd r) = fst (after k) /\ pdW (snd r) = snd (after k) /\ rows_are 1 (fun i e => i = it /\ e * e <= obj W0 + INR k * L) l).
  { destruct (check_due maxiter resprint it || (k =? 0)%nat).
    - destruct (approx_check_is it first (snd s)) as (l & E1 & E2 & E3 & E4). exists l. split; [exact E1|]. split; [congruence|]. split; [congruence|].
      eapply rows_mono; [|exact E4]. cbv beta. intros i e [-> ->]. split; [reflexivity|]. rewrite EW. exact Hrow.
    - exists []. cbv zeta. cbn [snd]. rewrite app_nil_r. split; [reflexivity|]. split; [exact EW|]. split; [exact ED|]. intros r []. }
  destruct C as (l & C1 & C2 & C3 & C4). destruct (if check_due maxiter resprint it || (k =? 0)%nat then _ else _) as [[stop f1] q]. cbv zeta in *. cbn [snd] in C1, C2, C3.
  assert (C4' : rows_are 1 (fun i e => (it <= i)%Z /\ e * e <= obj W0 + (INR k + IZR (i - it)) * L) l).
  { eapply rows_mono; [|exact C4]. cbv beta. intros i e [-> He]. split; [lia|]. rewrite Z.sub_diag, Rplus_0_r. exact He. }
  destruct stop.
  { exists 0%nat, l. cbn [fst snd]. rewrite Z.add_0_r, Nat.add_0_r. split; [reflexivity|]. split; [exact Hk|]. split; [rewrite C2, C3; destruct (after k); reflexivity|]. split; [auto|]. split; [exact C1|exact C4']. }
  assert (EN : (pW (snd (pp_step_all solve (lambda : Rnum) (1 : Rnum) V rk W0 (fst s, q))), pdW (snd (pp_step_all solve (lambda : Rnum) (1 : Rnum) V rk W0 (fst s, q)))) = after (S k) /\
    pio (snd (pp_step_all solve (lambda : Rnum) (1 : Rnum) V rk W0 (fst s, q))) = pio q).
  { unfold pp_step_all. cbn [snd]. rewrite C2, C3, <- surjective_pairing, after_S. destruct (pp_sweep solve (lambda : Rnum) (1 : Rnum) V W0 rk (after k)) as [W' D']. split; reflexivity. }
  destruct EN as [EN EP]. set (s2 := pp_step_all solve (lambda : Rnum) (1 : Rnum) V rk W0 (fst s, q)) in *.
  destruct (IH (S k) (it + 1)%Z f1 s2 ltac:(lia) ltac:(lia) EN) as (j & l2 & J1 & J2 & J3 & J4 & J5 & J6).
  { intros F'. eapply Rle_trans; [apply after_step; [lia|auto|auto]|]. rewrite S_INR. pose proof loss_pos as P.
    set (x := obj (fst (after k))) in *. set (y := obj W0) in *. set (z := L) in *. change (car Rnum) with R in *. clearbody x y z. lra. }
  cbv zeta in *. exists (S j), (l ++ l2). replace (k + S j)%nat with (S k + j)%nat by lia. split; [rewrite J1; lia|]. split; [exact J2|]. split; [exact J3|]. split; [exact J4|].
  split; [rewrite J5, EP, C1, app_assoc; reflexivity|]. apply rows_app; [exact C4'|]. eapply rows_mono; [|exact J6]. cbv beta. intros i e [A B]. split; [lia|].
  replace (INR k + IZR (i - it)) with (INR (S k) + IZR (i - (it + 1))); [exact B|]. rewrite S_INR, !minus_IZR, plus_IZR. ring.
Qed.
End Approx.
End Phases.
