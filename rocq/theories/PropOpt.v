(** Property theorems: the ALS optimizers of CPD (C19, C20, C21, C22) *)
From Coq Require Import List ZArith QArith Lia Bool Arith Permutation Ring.
From Verif Require Import Base Num Tensor Spec Spec3 MCommon MCP MOpt PBase PTensor PSum PMttkrp PPart PMat PKhatri PGrad PMatAlg PResid
  PSolve PTree PDT PDTSweep PALS PropPP PPPSweep POpt POptTree POptEval POptStep.
Import ListNotations.
Local Close Scope Q_scope.

(** k calls of step(): the sum of the returned fractions of a sweep, and the final state *)
Fixpoint steps {S} (k : nat) (step : S -> res (Q * S)) (s : S) : res (Q * S) :=
  match k with
  | 0 => Ok (0%Q, s)
  | Datatypes.S k => '(q, s) <- steps k step s ;; '(q', s) <- step s ;; Ok ((q + q')%Q, s)
  end.

(** ** C19 *)
Theorem C19_system_matrix :
  forall (N : num), ring_laws N ->
  forall (V : tensor N) (W : list (tensor N)) (S0 : tensor N) (R n : nat) (lambda : N) (regul : tensor N),
  2 <= order V -> factors_ok V W R -> n < order V -> lens S0 = [R; R] ->
  mk_regul R lambda = Ok regul ->
  update_S (order V) regul W S0 n = Ok (madd (hgram W n R) (mscal lambda (mid R))).
Proof.
  intros N RL V W S0 R n lambda regul H2 HW Hn HS Er. rewrite (mk_regul_ok RL) in Er. injection Er as <-.
  apply (update_S_ok RL V R lambda); auto.
Qed.
(** what S held before does not matter *)
Corollary C19_no_memory :
  forall (N : num), ring_laws N ->
  forall (V : tensor N) (W : list (tensor N)) (S0 S1 : tensor N) (R n : nat) (lambda : N),
  2 <= order V -> factors_ok V W R -> n < order V -> lens S0 = [R; R] -> lens S1 = [R; R] ->
  update_S (order V) (mscal lambda (mid R)) W S0 n = update_S (order V) (mscal lambda (mid R)) W S1 n.
Proof. intros N RL V W S0 S1 R n lambda H2 HW Hn H0 H1. rewrite !(update_S_ok RL V R lambda); auto. Qed.

Lemma flat_map_seq_S {A} (f : nat -> list A) k : flat_map f (seq 0 (S k)) = flat_map f (seq 0 k) ++ f k.
Proof. rewrite seq_S, flat_map_app. cbn. rewrite app_nil_r. auto. Qed.

(** ** C21: the two-subtree optimizer.  The state W, grad_W with which the optimizer was configured, k steps:
    always defined, and exactly the updates of the schedule with the exact MTTKRP of the factors as they stand. *)
Section DT.
Context {N : num} (RL : ring_laws N) (LA : lapack N) (V : tensor N) (R : nat) (lambda : N).
Let o := order V.
Hypothesis Hsh : tri_shaped (cholesky LA) (solve_tri LA).
Hypothesis Ho : 3 <= o <= 31.
Definition dt_good (s : dt_st N) (first : bool) : Prop :=
  ost_ok V R (ds s) /\ good_tree (o - 1) (dtree s) /\ dtop s = sstr (seq 0 (o - 1)) /\ dseq s = obuf o /\ dfirst s = first /\
  dix1 s = after o (o - 1) /\ dix2 s = after o (o - 2) /\ dl1 s = o - 1 /\ dl2 s = o - 2 /\ dspecial s = 0.
Lemma after_last : after o (o - 1) = seq 0 (o - 1).
Proof. unfold after. rewrite Nat.sub_diag. auto. Qed.
Lemma dt_new_ok st : ost_ok V R st -> exists s, dt_new o st = Ok s /\ dt_good s true /\ ds s = st.
Proof.
  intros Hst. unfold dt_new. rewrite opt_seqV_ok by lia. cbn [bind]. rewrite opt_tree_top_ok by lia. cbn [bind].
  destruct (opt_tree_ok o Ho) as (t & Et & Hg). rewrite Et. cbn [bind].
  replace ((o - 1 + o - 1) mod o) with (o - 2).
  2:{ replace (o - 1 + o - 1) with (o - 2 + 1 * o) by lia. rewrite Nat.mod_add by lia. rewrite Nat.mod_small; lia. }
  rewrite update_indexes_ok by (rewrite ?seq_length; lia). cbn [bind]. eexists; split; [reflexivity|]. split; [|reflexivity].
  unfold dt_good. cbn. rewrite after_last. auto 12.
Qed.
Lemma dt_step_ok fuel s first : o - 1 <= fuel -> dt_good s first ->
  exists s', dt_step LA fuel V (mscal lambda (mid R)) s = Ok ((1 # 2)%Q, s') /\ dt_good s' (negb first) /\
    owg (ds s') = ls_modes (chol_solve (cholesky LA) (solve_tri LA)) lambda V R (if first then seq 0 (o - 1) else [o - 1]) (owg (ds s)).
Proof.
  intros Hf (Hst & Hg & Htop & Hseq & Hfi & H1 & H2 & Hl1 & Hl2 & Hsp). unfold dt_step. rewrite Hfi, H1, H2, Hl1, Hl2, Hsp, Hseq, Htop.
  set (left := if first then o - 1 else o - 2).
  assert (Hl : left < o) by (unfold left; destruct first; lia).
  assert (Eix : (if first then after o (o - 1) else after o (o - 2)) = after o left) by (unfold left; destruct first; auto). rewrite Eix.
  rewrite (fresh_top_ok RL V R Ho) by (auto; apply Hst). cbn [bind]. rewrite after_length by auto.
  set (lo := fst (dt_range first 0 (o - 1))). set (hi := snd (dt_range first 0 (o - 1))).
  assert (Er : dt_range first 0 (o - 1) = (lo, hi)) by (unfold lo, hi; apply surjective_pairing). rewrite Er.
  assert (Hlh : lo = 0 /\ hi = if first then o - 1 else 1).
  { unfold lo, hi, dt_range. destruct first; cbn [fst snd]; split; auto. replace (0 + 1) with 1 by lia. lia. }
  destruct Hlh as [Elo Ehi].
  destruct (tree_loop_ok RL LA V R lambda Hsh Ho (dtree s) Hg left fuel lo hi (ds s)) as (st' & mp' & E & Hok & Hu); auto.
  - rewrite Elo. lia.
  - fold o. rewrite Ehi. destruct first; lia.
  - fold o in E |- *. rewrite E. cbn [bind]. eexists; split; [reflexivity|]. split.
    + unfold dt_good. cbn. auto 12.
    + cbn [ds]. rewrite Hu. f_equal. rewrite Elo, Ehi, Nat.sub_0_r. unfold left. destruct first.
      * fold o. rewrite <- after_cmode by lia. apply after_last.
      * cbn. fold o. f_equal. cyc.
Qed.
Theorem dt_steps_ok fuel st k : o - 1 <= fuel -> ost_ok V R st ->
  exists s0 q s, dt_new o st = Ok s0 /\ steps k (dt_step LA fuel V (mscal lambda (mid R))) s0 = Ok (q, s) /\ dt_good s (Nat.even k) /\
   (q == Z.of_nat k # 2)%Q /\ owg (ds s) = ls_modes (chol_solve (cholesky LA) (solve_tri LA)) lambda V R (dt_schedule o k) (owg st).
Proof.
  intros Hf Hst. destruct (dt_new_ok st Hst) as (s0 & E0 & Hg0 & Es). exists s0.
  assert (H : exists q s, steps k (dt_step LA fuel V (mscal lambda (mid R))) s0 = Ok (q, s) /\ dt_good s (Nat.even k) /\
   (q == Z.of_nat k # 2)%Q /\ owg (ds s) = ls_modes (chol_solve (cholesky LA) (solve_tri LA)) lambda V R (dt_schedule o k) (owg st)).
  { induction k as [|k IH].
    - exists 0%Q, s0. cbn. rewrite Es. split; [auto|]. split; [exact Hg0|]. split; [reflexivity|reflexivity].
    - destruct IH as (q & s & E & Hg & Hq & Hu). destruct (dt_step_ok fuel s (Nat.even k) Hf Hg) as (s' & E' & Hg' & Hu').
      exists (q + (1 # 2))%Q, s'. cbn [steps]. rewrite E. cbn [bind]. rewrite E'. cbn [bind]. split; [auto|]. split.
      + rewrite Nat.even_succ, <- Nat.negb_even. exact Hg'.
      + split; [rewrite Hq; unfold Qeq; cbn; lia|]. rewrite Hu', Hu. unfold dt_schedule. rewrite flat_map_seq_S, ls_modes_app. reflexivity. }
  destruct H as (q & s & H). exists q, s. split; auto.
Qed.
(** the multi-sweep optimizer *)
Definition ms_good (s : ms_st N) (left : nat) : Prop :=
  ost_ok V R (mss s) /\ good_tree (o - 1) (mtree s) /\ mtop s = sstr (seq 0 (o - 1)) /\ mseq s = obuf o /\ length (mix s) = o - 1 /\ mleft s = left.
Lemma ms_new_ok st : ost_ok V R st -> exists s, ms_new o st = Ok s /\ ms_good s o /\ mss s = st.
Proof.
  intros Hst. unfold ms_new. rewrite opt_seqV_ok by lia. cbn [bind]. rewrite opt_tree_top_ok by lia. cbn [bind].
  destruct (opt_tree_ok o Ho) as (t & Et & Hg). rewrite Et. cbn [bind]. eexists; split; [reflexivity|]. split; [|reflexivity].
  unfold ms_good. cbn. rewrite seq_length. auto 12.
Qed.
Lemma ms_step_ok fuel s left : o - 1 <= fuel -> ms_good s left ->
  let left' := (left + o - 1) mod o in
  exists s', ms_step LA fuel V (mscal lambda (mid R)) s = Ok ((Z.of_nat o - 1 # Pos.of_nat o)%Q, s') /\ ms_good s' left' /\
    owg (mss s') = ls_modes (chol_solve (cholesky LA) (solve_tri LA)) lambda V R (after o left') (owg (mss s)).
Proof.
  intros Hf (Hst & Hg & Htop & Hseq & Hix & Hleft) left'. unfold ms_step. fold o. rewrite Hleft, Hseq, Htop. fold left'.
  assert (Hl : left' < o) by (apply Nat.mod_upper_bound; lia).
  rewrite update_indexes_ok by auto. cbn [bind]. rewrite (fresh_top_ok RL V R Ho) by (auto; apply Hst). cbn [bind]. rewrite after_length by auto.
  destruct (tree_loop_ok RL LA V R lambda Hsh Ho (mtree s) Hg left' fuel 0 (o - 1) (mss s)) as (st' & mp' & E & Hok & Hu); auto; [lia|].
  fold o in E |- *. rewrite E. cbn [bind]. eexists; split; [reflexivity|]. split.
  - unfold ms_good. cbn. rewrite after_length by auto. auto 12.
  - cbn [mss]. rewrite Hu. rewrite Nat.sub_0_r. fold o. rewrite <- after_cmode by auto. auto.
Qed.
Lemma ms_left k : let left k := match k with 0 => o | S k => o - 1 - k mod o end in (left k + o - 1) mod o = o - 1 - k mod o.
Proof.
  assert (Hk := Nat.mod_upper_bound k o ltac:(lia)). cbv zeta. destruct k as [|k].
  - rewrite Nat.mod_0_l by lia. replace (o + o - 1) with (o - 1 + 1 * o) by lia. rewrite Nat.mod_add by lia. rewrite Nat.mod_small; lia.
  - assert (Hk' := Nat.mod_upper_bound k o ltac:(lia)). destruct (Nat.eq_dec (k mod o) (o - 1)) as [E|E].
    + replace (S k mod o) with 0. { rewrite E, Nat.sub_diag, Nat.sub_0_r. rewrite Nat.mod_small; lia. }
      rewrite (Nat.div_mod k o) by lia. rewrite E. replace (S (o * (k / o) + (o - 1))) with (0 + (k / o + 1) * o) by lia. rewrite Nat.mod_add by lia. rewrite Nat.mod_0_l; lia.
    + replace (S k mod o) with (S (k mod o)).
      2:{ rewrite (Nat.div_mod k o) at 2 by lia. replace (S (o * (k / o) + k mod o)) with (S (k mod o) + (k / o) * o) by lia. rewrite Nat.mod_add by lia. symmetry. apply Nat.mod_small. lia. }
      replace (o - 1 - k mod o + o - 1) with (o - 2 - k mod o + 1 * o) by lia. rewrite Nat.mod_add by lia. rewrite Nat.mod_small; lia.
Qed.
Theorem ms_steps_ok fuel st k : o - 1 <= fuel -> ost_ok V R st ->
  exists s0 q s, ms_new o st = Ok s0 /\ steps k (ms_step LA fuel V (mscal lambda (mid R))) s0 = Ok (q, s) /\
   ms_good s (match k with 0 => o | S k => o - 1 - k mod o end) /\
   (q == Z.of_nat k * (Z.of_nat o - 1) # Pos.of_nat o)%Q /\
   owg (mss s) = ls_modes (chol_solve (cholesky LA) (solve_tri LA)) lambda V R (ms_schedule o k) (owg st).
Proof.
  intros Hf Hst. destruct (ms_new_ok st Hst) as (s0 & E0 & Hg0 & Es). exists s0.
  assert (H : exists q s, steps k (ms_step LA fuel V (mscal lambda (mid R))) s0 = Ok (q, s) /\
   ms_good s (match k with 0 => o | S k => o - 1 - k mod o end) /\
   (q == Z.of_nat k * (Z.of_nat o - 1) # Pos.of_nat o)%Q /\
   owg (mss s) = ls_modes (chol_solve (cholesky LA) (solve_tri LA)) lambda V R (ms_schedule o k) (owg st)).
  { induction k as [|k IH].
    - exists 0%Q, s0. cbn. rewrite Es. split; [auto|]. split; [exact Hg0|]. split; [reflexivity|reflexivity].
    - destruct IH as (q & s & E & Hg & Hq & Hu). destruct (ms_step_ok fuel s _ Hf Hg) as (s' & E' & Hg' & Hu').
      pose proof (ms_left k) as HL. cbv zeta in HL. rewrite HL in Hg', Hu'.
      exists (q + (Z.of_nat o - 1 # Pos.of_nat o))%Q, s'. cbn [steps]. rewrite E. cbn [bind]. rewrite E'. cbn [bind]. split; [auto|]. split; [exact Hg'|].
      split; [rewrite Hq; unfold Qeq; cbn [Qnum Qden Qplus]; rewrite Nat2Z.inj_succ, Pos2Z.inj_mul; ring|].
      rewrite Hu', Hu. unfold ms_schedule. rewrite flat_map_seq_S, ls_modes_app. reflexivity. }
  destruct H as (q & s & H). exists q, s. split; auto.
Qed.
End DT.

Theorem C21_two_subtree_optimizer_exact :
  forall (N : num), ring_laws N ->
  forall (LA : lapack N) (V : tensor N) (W G : list (tensor N)) (S0 : tensor N) (R : nat) (lambda : N) (regul : tensor N) (fuel k : nat),
  tri_shaped (cholesky LA) (solve_tri LA) ->
  3 <= order V <= 31 -> order V <= fuel + 1 -> factors_ok V W R -> mats_ok V G R -> lens S0 = [R; R] -> mk_regul R lambda = Ok regul ->
  exists s0 q s, dt_new (order V) (mkOpt W G S0) = Ok s0 /\ steps k (dt_step LA fuel V regul) s0 = Ok (q, s) /\
    (oW (ds s), oG (ds s)) = ls_modes (chol_solve (cholesky LA) (solve_tri LA)) lambda V R (dt_schedule (order V) k) (W, G).
Proof.
  intros N RL LA V W G S0 R lambda regul fuel k Hsh Ho Hf HW HG HS Er. rewrite (mk_regul_ok RL) in Er. injection Er as <-.
  destruct (dt_steps_ok RL LA V R lambda Hsh Ho fuel (mkOpt W G S0) k) as (s0 & q & s & E0 & E & _ & _ & Hu); [lia|split; auto|].
  exists s0, q, s. split; [auto|]. split; [auto|]. exact Hu.
Qed.
Theorem C20_multi_sweep_optimizer_exact :
  forall (N : num), ring_laws N ->
  forall (LA : lapack N) (V : tensor N) (W G : list (tensor N)) (S0 : tensor N) (R : nat) (lambda : N) (regul : tensor N) (fuel k : nat),
  tri_shaped (cholesky LA) (solve_tri LA) ->
  3 <= order V <= 31 -> order V <= fuel + 1 -> factors_ok V W R -> mats_ok V G R -> lens S0 = [R; R] -> mk_regul R lambda = Ok regul ->
  exists s0 q s, ms_new (order V) (mkOpt W G S0) = Ok s0 /\ steps k (ms_step LA fuel V regul) s0 = Ok (q, s) /\
    (oW (mss s), oG (mss s)) = ls_modes (chol_solve (cholesky LA) (solve_tri LA)) lambda V R (ms_schedule (order V) k) (W, G).
Proof.
  intros N RL LA V W G S0 R lambda regul fuel k Hsh Ho Hf HW HG HS Er. rewrite (mk_regul_ok RL) in Er. injection Er as <-.
  destruct (ms_steps_ok RL LA V R lambda Hsh Ho fuel (mkOpt W G S0) k) as (s0 & q & s & E0 & E & _ & _ & Hu); [lia|split; auto|].
  exists s0, q, s. split; [auto|]. split; [auto|]. exact Hu.
Qed.
(** for matrices (order 2) the constructors of both tree optimizers write outside an empty vector *)
Theorem C21_order2_undefined : forall (N : num) (st : opt_st N), dt_new 2 st = Err UB /\ ms_new 2 st = Err UB.
Proof. intros. split; reflexivity. Qed.

(** ** C22 sweep accounting *)
Theorem C22_two_subtree_accounting :
  forall (N : num), ring_laws N ->
  forall (LA : lapack N) (V : tensor N) (W G : list (tensor N)) (S0 : tensor N) (R : nat) (lambda : N) (regul : tensor N) (fuel k : nat),
  tri_shaped (cholesky LA) (solve_tri LA) ->
  3 <= order V <= 31 -> order V <= fuel + 1 -> factors_ok V W R -> mats_ok V G R -> lens S0 = [R; R] -> mk_regul R lambda = Ok regul ->
  exists s0 q s, dt_new (order V) (mkOpt W G S0) = Ok s0 /\ steps (2 * k) (dt_step LA fuel V regul) s0 = Ok (q, s) /\
    (q == inject_Z (Z.of_nat k))%Q /\
    (oW (ds s), oG (ds s)) = Nat.iter k (ls_modes (chol_solve (cholesky LA) (solve_tri LA)) lambda V R (seq 0 (order V))) (W, G).
Proof.
  intros N RL LA V W G S0 R lambda regul fuel k Hsh Ho Hf HW HG HS Er. rewrite (mk_regul_ok RL) in Er. injection Er as <-.
  destruct (dt_steps_ok RL LA V R lambda Hsh Ho fuel (mkOpt W G S0) (2 * k)) as (s0 & q & s & E0 & E & _ & Hq & Hu); [lia|split; auto|].
  exists s0, q, s. split; [auto|]. split; [auto|]. split; [rewrite Hq; unfold Qeq, inject_Z; cbn [Qnum Qden]; lia|].
  unfold owg in Hu. cbn [oW oG] in Hu. rewrite Hu. clear - Ho. induction k as [|k IH]; [reflexivity|].
  replace (2 * S k) with (S (S (2 * k))) by lia. unfold dt_schedule in *. rewrite !flat_map_seq_S, <- app_assoc, ls_modes_app, IH.
  change (Nat.iter (S k) ?f (W, G)) with (f (Nat.iter k f (W, G))).
  f_equal. unfold dt_half. rewrite Nat.even_succ. rewrite <- Nat.negb_even, Nat.even_mul. cbn [Nat.even orb negb].
  replace (order V) with (S (order V - 1)) at 3 by lia. rewrite seq_S. auto.
Qed.
(** [m] occurs [c] times in [l] *)
Definition times (m : nat) (l : list nat) : nat := count_occ Nat.eq_dec l m.
Lemma times_app m a b : times m (a ++ b) = times m a + times m b.
Proof. unfold times. apply count_occ_app. Qed.
Lemma times_nodup m l : NoDup l -> times m l = if existsb (Nat.eqb m) l then 1 else 0.
Proof.
  intros Hn. unfold times. induction Hn as [|x l Hx Hn IH]; cbn; auto. destruct (Nat.eq_dec x m) as [->|E].
  - rewrite Nat.eqb_refl. cbn. f_equal. apply count_occ_not_In. auto.
  - destruct (Nat.eqb_spec m x); [congruence|]. cbn. auto.
Qed.
Lemma times_after o l m : l < o -> m < o -> times m (after o l) = if m =? l then 0 else 1.
Proof.
  intros Hl Hm. rewrite times_nodup by apply after_nodup. pose proof (existsb_nat m (after o l)) as He. rewrite after_in in He by auto.
  destruct (existsb (Nat.eqb m) (after o l)); destruct (Nat.eqb_spec m l); auto; [destruct (proj1 He eq_refl); lia|].
  assert (true = false); [|discriminate]. symmetry. apply He. auto.
Qed.
(** one round of o multi-sweep steps visits every mode o-1 times *)
Lemma ms_round o m j : 3 <= o -> m < o -> times m (ms_schedule o (o * j)) = (o - 1) * j.
Proof.
  intros Ho Hm.
  assert (Hk : forall k b, k <= o -> times m (flat_map (fun j => after o (o - 1 - j mod o)) (seq (o * b) k)) = k - (if o - 1 - m <? k then 1 else 0)).
  { intros k b. induction k as [|k IH]; intros Hk; [destruct (Nat.ltb_spec (o - 1 - m) 0); auto|].
    rewrite seq_S, flat_map_app, times_app, IH by lia. cbn [flat_map]. rewrite app_nil_r.
    replace (o * b + k) with (k + b * o) by lia. rewrite Nat.mod_add by lia. rewrite Nat.mod_small by lia. rewrite times_after by lia.
    destruct (Nat.eqb_spec m (o - 1 - k)), (Nat.ltb_spec (o - 1 - m) k), (Nat.ltb_spec (o - 1 - m) (S k)); lia. }
  unfold ms_schedule. induction j as [|j IH]; [rewrite !Nat.mul_0_r; auto|].
  replace (o * S j) with (o * j + o) by lia. rewrite seq_app, flat_map_app, times_app, IH. cbn [Nat.add]. rewrite Hk by lia.
  destruct (Nat.ltb_spec (o - 1 - m) o); lia.
Qed.
Theorem C22_multi_sweep_accounting :
  forall (N : num), ring_laws N ->
  forall (LA : lapack N) (V : tensor N) (W G : list (tensor N)) (S0 : tensor N) (R : nat) (lambda : N) (regul : tensor N) (fuel j : nat),
  tri_shaped (cholesky LA) (solve_tri LA) ->
  3 <= order V <= 31 -> order V <= fuel + 1 -> factors_ok V W R -> mats_ok V G R -> lens S0 = [R; R] -> mk_regul R lambda = Ok regul ->
  exists s0 q s visits, ms_new (order V) (mkOpt W G S0) = Ok s0 /\ steps (order V * j) (ms_step LA fuel V regul) s0 = Ok (q, s) /\
    (oW (mss s), oG (mss s)) = ls_modes (chol_solve (cholesky LA) (solve_tri LA)) lambda V R visits (W, G) /\
    (q == inject_Z (Z.of_nat ((order V - 1) * j)))%Q /\
    (forall m, m < order V -> times m visits = (order V - 1) * j).
Proof.
  intros N RL LA V W G S0 R lambda regul fuel j Hsh Ho Hf HW HG HS Er. rewrite (mk_regul_ok RL) in Er. injection Er as <-.
  destruct (ms_steps_ok RL LA V R lambda Hsh Ho fuel (mkOpt W G S0) (order V * j)) as (s0 & q & s & E0 & E & _ & Hq & Hu); [lia|split; auto|].
  exists s0, q, s, (ms_schedule (order V) (order V * j)). split; [auto|]. split; [auto|]. split; [exact Hu|]. split.
  - rewrite Hq. clear - Ho. unfold Qeq, inject_Z. cbn [Qnum Qden]. rewrite Z.mul_1_r.
    replace (Z.pos (Pos.of_nat (order V))) with (Z.of_nat (order V)).
    2:{ rewrite <- positive_nat_Z. rewrite Nat2Pos.id by lia. auto. }
    rewrite !Nat2Z.inj_mul, Nat2Z.inj_sub by lia. ring.
  - intros m Hm. apply ms_round; lia.
Qed.
Lemma simple_seq {N : num} (RL : ring_laws N) (LA : lapack N) (V : tensor N) (R : nat) (lambda : N) (Hsh : tri_shaped (cholesky LA) (solve_tri LA)) s (st0 : opt_st N) k :
  2 <= order V <= 10 -> lens V = repeat s (order V) -> ost_ok V R st0 ->
  exists q st, steps k (simple_step LA V (mscal lambda (mid R))) (st0, obuf (order V)) = Ok (q, (st, obuf (order V))) /\ ost_ok V R st /\
    (oW st, oG st) = Nat.iter k (ls_modes (chol_solve (cholesky LA) (solve_tri LA)) lambda V R (seq 0 (order V))) (oW st0, oG st0).
Proof.
  intros Ho Hc H0. induction k as [|k IH].
  - exists 0%Q, st0. split; [reflexivity|]. split; [auto|reflexivity].
  - destruct IH as (q & st & E & Hok & Hu). destruct (simple_step_ok RL LA V R lambda Hsh st s Ho Hc Hok) as (st' & E' & Hok' & Hu').
    exists (q + 1)%Q, st'. cbn [steps]. rewrite E. cbn [bind]. rewrite E'. cbn [bind]. split; [auto|]. split; [auto|].
    unfold owg in Hu'. rewrite Hu', Hu. reflexivity.
Qed.
Theorem C22_simple_step_is_a_sweep :
  forall (N : num), ring_laws N ->
  forall (LA : lapack N) (V : tensor N) (W G : list (tensor N)) (S0 : tensor N) (R s : nat) (lambda : N) (regul : tensor N) (k : nat),
  tri_shaped (cholesky LA) (solve_tri LA) ->
  2 <= order V <= 10 -> lens V = repeat s (order V) -> factors_ok V W R -> mats_ok V G R -> lens S0 = [R; R] -> mk_regul R lambda = Ok regul ->
  exists sq q st sq', opt_seqV (order V) = Ok sq /\ steps k (simple_step LA V regul) (mkOpt W G S0, sq) = Ok (q, (st, sq')) /\
    (q == inject_Z (Z.of_nat k))%Q /\
    (oW st, oG st) = Nat.iter k (ls_modes (chol_solve (cholesky LA) (solve_tri LA)) lambda V R (seq 0 (order V))) (W, G).
Proof.
  intros N RL LA V W G S0 R s lambda regul k Hsh Ho Hc HW HG HS Er. rewrite (mk_regul_ok RL) in Er. injection Er as <-.
  exists (obuf (order V)). rewrite opt_seqV_ok by lia.
  assert (H : exists q st, steps k (simple_step LA V (mscal lambda (mid R))) (mkOpt W G S0, obuf (order V)) = Ok (q, (st, obuf (order V))) /\
    (q == inject_Z (Z.of_nat k))%Q /\ ost_ok V R st /\
    (oW st, oG st) = Nat.iter k (ls_modes (chol_solve (cholesky LA) (solve_tri LA)) lambda V R (seq 0 (order V))) (W, G)).
  { induction k as [|k IH].
    - exists 0%Q, (mkOpt W G S0). split; [reflexivity|]. split; [reflexivity|]. split; [split; auto|reflexivity].
    - destruct IH as (q & st & E & Hq & Hok & Hu). destruct (simple_step_ok RL LA V R lambda Hsh st s Ho Hc Hok) as (st' & E' & Hok' & Hu').
      exists (q + 1)%Q, st'. cbn [steps]. rewrite E. cbn [bind]. rewrite E'. cbn [bind]. split; [auto|]. split; [|split; [auto|]].
      + rewrite Hq. unfold Qeq, inject_Z. cbn [Qnum Qden Qplus]. lia.
      + unfold owg in Hu'. rewrite Hu', Hu. reflexivity. }
  destruct H as (q & st & E & Hq & _ & Hu). exists q, st, (obuf (order V)). auto.
Qed.

(** ** a concrete case: a 2x2x2 integer tensor, rank 2; triangular solves that return the right-hand side.
    All hypotheses hold and the factors really change. *)
Definition oV : tensor Znum := zt [2; 2; 2] [1; 2; 3; 4; 5; 6; 7; 9]%Z.
Definition oW0 : list (tensor Znum) := [zt [2; 2] [1; 0; 2; 1]%Z; mid 2; mid 2].
Definition oLA : lapack Znum :=
  @mkLapack Znum (fun S k => (mid k, @tabulate Znum [k] (fun _ => 1%Z), mid k)) (fun A => A) (fun B L _ _ _ => B) (fun A => A) (fun _ ls => zeros ls).
Lemma oLA_shaped : tri_shaped (cholesky oLA) (solve_tri oLA).
Proof. split; cbn; auto. Qed.
Lemma oW0_ok : factors_ok oV oW0 2.
Proof.
  split; [reflexivity|]. split; [reflexivity|]. intros m Hm. cbn in Hm.
  destruct m as [|[|[|m]]]; [split; reflexivity|split; reflexivity|split; reflexivity|lia].
Qed.
Definition first_factor {X} (get : X -> list (tensor Znum)) (r : res (Q * X)) : option (list Z) :=
  match r with Ok (_, s) => Some (data (fac (get s) 0)) | _ => None end.
Theorem C22_case :
  factors_ok oV oW0 2 /\ mats_ok oV oW0 2 /\ tri_shaped (cholesky oLA) (solve_tri oLA) /\
  (exists regul, mk_regul 2 (1%Z : Znum) = Ok regul /\
   first_factor (fun s => oW (ds s)) (s0 <- dt_new 3 (mkOpt oW0 oW0 (zeros [2; 2])) ;; steps 3 (dt_step oLA 2 oV regul) s0) <> Some (data (fac oW0 0)) /\
   first_factor (fun s => oW (mss s)) (s0 <- ms_new 3 (mkOpt oW0 oW0 (zeros [2; 2])) ;; steps 3 (ms_step oLA 2 oV regul) s0) <> Some (data (fac oW0 0)) /\
   first_factor (fun s => oW (mss s)) (s0 <- ms_new 3 (mkOpt oW0 oW0 (zeros [2; 2])) ;; steps 3 (ms_step oLA 2 oV regul) s0) <> None).
Proof.
  split; [apply oW0_ok|]. split.
  { destruct oW0_ok as (_ & H1 & H2). split; auto. }
  split; [apply oLA_shaped|]. eexists. split; [vm_compute; reflexivity|]. vm_compute. repeat split; discriminate.
Qed.
Print Assumptions C19_system_matrix.
Print Assumptions C20_multi_sweep_optimizer_exact.
Print Assumptions C21_two_subtree_optimizer_exact.
Print Assumptions C22_two_subtree_accounting.
Print Assumptions C22_multi_sweep_accounting.
Print Assumptions C22_simple_step_is_a_sweep.
