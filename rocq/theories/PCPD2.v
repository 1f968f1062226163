(** CPD::als with each of the optimizers *)
From Coq Require Import List ZArith QArith Qround Lia Bool Arith Ring.
From Verif Require Import Base Num Tensor Spec Spec3 Spec4 MCommon MCP MOpt MOptLR MCPD PBase PTensor PSum PMat PMttkrp PMatAlg PSolve PGrad PBuildV PDT PDTSweep PDrivers
  PALS PPPSweep POpt POptTree POptEval POptStep PropOpt POptLR POptLR2 PropOptLR PCPD.
Import ListNotations.
Local Close Scope Q_scope.

(** what is needed of the tensor order (and of the update rank) for a method *)
Definition method_ok (m : cpd_method) (o size R : nat) : Prop :=
  match m with
  | Simple => 2 <= o <= 10
  | TwoSubtree | MultiSweep => 3 <= o <= 19
  | TwoSubtreeLR k _ | MultiSweepLR k _ => 3 <= o <= 19 /\ k <= R /\ k <= size
  end.
(** the part of a sweep done by one step *)
Definition method_part (m : cpd_method) (o : nat) : Q :=
  match m with
  | Simple => 1
  | TwoSubtree | TwoSubtreeLR _ _ => 1 # 2
  | MultiSweep | MultiSweepLR _ _ => Z.of_nat o - 1 # Pos.of_nat o
  end.
(** factors and gradients after k steps *)
Definition method_state {N : num} (m : cpd_method) (LA : lapack N) (lambda : N) (V : tensor N) (R : nat) (W G : list (tensor N)) (k : nat)
  : list (tensor N) * list (tensor N) :=
  let solve := chol_solve (cholesky LA) (solve_tri LA) in
  let o := order V in
  let low r rs l := lr_acts solve (lr_inc (trunc_of (svd LA) (qr_q LA) (rnd LA) rs) (cholesky LA) (solve_tri LA) r) lambda V R l (mkLR W G (repeat tnil o) 0) in
  match m with
  | Simple => Nat.iter k (ls_modes solve lambda V R (seq 0 o)) (W, G)
  | TwoSubtree => ls_modes solve lambda V R (dt_schedule o k) (W, G)
  | MultiSweep => ls_modes solve lambda V R (ms_schedule o k) (W, G)
  | TwoSubtreeLR r rs => let st := low r rs (dl_schedule o k) in (rW st, rG st)
  | MultiSweepLR r rs => let st := low r rs (ml_schedule o k) in (rW st, rG st)
  end.

Lemma steps_same {St : Type} (step : St -> res (Q * St)) p s0 k q s : (forall s q' s', step s = Ok (q', s') -> q' = p) ->
  steps k step s0 = Ok (q, s) -> q = exact_sum p k.
Proof.
  intros Hp. revert q s. induction k as [|k IH]; cbn [steps]; intros q s E; [cbn; congruence|].
  destruct (steps k step s0) as [[q1 s1]|]; [|discriminate]. cbn [bind] in E. destruct (step s1) as [[q2 s2]|] eqn:E2; [|discriminate]. cbn [bind] in E.
  apply Hp in E2 as E3. specialize (IH q1 s1 eq_refl). assert (q = (q1 + q2)%Q) by congruence. rewrite H, E3, IH. reflexivity.
Qed.

Ltac binds H := repeat match type of H with
  | bind ?x _ = Ok _ => destruct x eqn:?; [cbn [bind] in H|discriminate H]
  | (let '(_, _) := ?x in _) = Ok _ => destruct x eqn:?
  | (if ?x then _ else _) = Ok _ => destruct x eqn:?
  end.
Section P.
Context {N : num} (LA : lapack N).
Lemma dt_part fuel V regul (s : dt_st N) q s' : dt_step LA fuel V regul s = Ok (q, s') -> q = (1 # 2)%Q.
Proof. intros H. unfold dt_step in H. binds H. congruence. Qed.
Lemma ms_part fuel V regul (s : ms_st N) q s' : ms_step LA fuel V regul s = Ok (q, s') -> q = (Z.of_nat (order V) - 1 # Pos.of_nat (order V))%Q.
Proof. intros H. unfold ms_step in H. binds H. congruence. Qed.
Lemma dl_part fuel k rs V regul (s : dl_st N) q s' : dl_step LA fuel k rs V regul s = Ok (q, s') -> q = (1 # 2)%Q.
Proof. intros H. unfold dl_step in H. binds H; congruence. Qed.
Lemma ml_part fuel k rs V regul (s : ml_st N) q s' : ml_step LA fuel k rs V regul s = Ok (q, s') -> q = (Z.of_nat (order V) - 1 # Pos.of_nat (order V))%Q.
Proof. intros H. unfold ml_step in H. binds H; congruence. Qed.
Lemma simple_part V regul (s : opt_st N * buf Z) q s' : simple_step LA V regul s = Ok (q, s') -> q = 1%Q.
Proof. intros H. unfold simple_step in H. binds H; congruence. Qed.
End P.
Section R.
Context {N : num} (RL : ring_laws N) (LA : lapack N) (clk : nat -> N) (rank0 : bool).
Context (V : tensor N) (size R : nat) (W G : list (tensor N)) (lambda : N) (m : cpd_method).
Let o := order V.
Hypothesis Hsh : tri_shaped (cholesky LA) (solve_tri LA).
Hypothesis Hlow : low_shaped (svd LA) (qr_q LA) (rnd LA).
Hypothesis Hm : method_ok m o size R.
Hypothesis Hc : lens V = repeat size o.
Hypothesis HW : factors_ok V W R.
Hypothesis HG : mats_ok V G R.
Lemma cpd_init_ok : cpd_init o size R V W = Ok tt.
Proof.
  unfold cpd_init. fold o. rewrite Nat.eqb_refl. cbn [cpd_assert bind].
  destruct (for_inv (fun _ (u : unit) => u = tt) (fun i (_ : unit) => l <- lget (lens V) i ;; _ <- cpd_assert (Nat.eqb l size) ;; Wi <- lget W i ;; cpd_assert (Nat.eqb (ncol Wi) R)) 0 o tt) as (u & E & Hu); auto.
  - lia.
  - intros i u Hi _. exists tt. split; [|auto]. rewrite Hc. rewrite (lget_ok _ _ 0) by (rewrite repeat_length; lia). cbn [bind]. rewrite nth_rep by lia. rewrite Nat.eqb_refl. cbn [cpd_assert bind].
    rewrite (W_lget LA V R W i) by (auto; lia). cbn [bind]. destruct (W_dims V R W i HW ltac:(fold o; lia)) as [_ ->]. rewrite Nat.eqb_refl. auto.
  - rewrite E. subst u. auto.
Qed.
Lemma part_pos : (0 < method_part m o)%Q /\ ((4096 # 8192) <= method_part m o)%Q.
Proof.
  unfold method_part. destruct m; cbn [method_ok] in Hm; unfold Qlt, Qle; cbn [Qnum Qden]; split; try lia.
  all: rewrite ?Z.mul_1_r, ?Z.mul_1_l; try lia.
  all: replace (Z.pos (Pos.of_nat o)) with (Z.of_nat o) by (rewrite <- positive_nat_Z, Nat2Pos.id by lia; auto); lia.
Qed.
Definition seq_ok {St} (step : St -> res (Q * St)) (base : St -> opt_st N) (s0 : St) : Prop :=
  (forall s q' s', step s = Ok (q', s') -> q' = method_part m o) /\ forall k, exists s, steps k step s0 = Ok (exact_sum (method_part m o) k, s) /\
    oW (base s) = fst (method_state m LA lambda V R W G k) /\ oG (base s) = snd (method_state m LA lambda V R W G k) /\
    factors_ok V (fst (method_state m LA lambda V R W G k)) R /\ length (snd (method_state m LA lambda V R W G k)) = order V.
Lemma seq_ok_pair {St} (step : St -> res (Q * St)) (base : St -> opt_st N) s0 k q s :
  (forall s q' s', step s = Ok (q', s') -> q' = method_part m o) ->
  steps k step s0 = Ok (q, s) -> ost_ok V R (base s) -> method_state m LA lambda V R W G k = (oW (base s), oG (base s)) ->
  exists s, steps k step s0 = Ok (exact_sum (method_part m o) k, s) /\
    oW (base s) = fst (method_state m LA lambda V R W G k) /\ oG (base s) = snd (method_state m LA lambda V R W G k) /\
    factors_ok V (fst (method_state m LA lambda V R W G k)) R /\ length (snd (method_state m LA lambda V R W G k)) = order V.
Proof.
  intros Hp E Hst Em. exists s. rewrite <- (steps_same _ _ _ _ _ _ Hp E). rewrite Em. cbn [fst snd].
  split; [auto|]. split; [auto|]. split; [auto|]. destruct Hst as (H1 & H2 & _). split; [auto|]. apply H2.
Qed.
Theorem cpd_run_ok wf tol limit maxsweep resprint bench x :
  (0 <= maxsweep)%Z -> resprint <> 0%Z -> (2 * (Z.to_nat maxsweep + 1) <= wf)%nat ->
  let q := method_part m o in
  let Wf k := fst (method_state m LA lambda V R W G k) in
  let Gf k := snd (method_state m LA lambda V R W G k) in
  exists k (stopped : bool) gn rows,
    cpd_run LA clk rank0 m wf o size R V W G lambda tol limit maxsweep resprint bench x
      = Ok (negb (Qeq_bool (sweeps_after q k) (inject_Z (maxsweep + 1))), method_state m LA lambda V R W G k, gn, rows) /\
    als_run clk (ck x) tol limit maxsweep resprint q Gf k stopped /\
    (stopped = true -> gn = grad_norm (Gf k)) /\
    rows = if rank0 then als_rows clk (ck x) V R tol q bench Wf Gf (checks q maxsweep resprint (k + if stopped then 1 else 0)%nat) else [].
Proof.
  intros Hmax Hrp Hwf q Wf Gf.
  assert (Hfl : (maxsweep < Qfloor (sweeps_after q wf))%Z).
  { apply Z.lt_le_trans with (maxsweep + 1)%Z; [lia|]. apply Z.le_trans with (Qfloor (inject_Z (maxsweep + 1))); [rewrite Qfloor_Z; lia|].
    apply Qfloor_resp_le. apply Qle_trans with (Z.of_nat wf * 4096 # 8192)%Q; [|apply sweeps_ge; apply part_pos].
    unfold Qle, inject_Z. cbn [Qnum Qden]. clear - Hwf Hmax. lia. }
  assert (Ho2 : (2 <= o <= 19)%nat) by (clear - Hm; destruct m; cbn [method_ok] in Hm; lia).
  assert (HS : ost_ok V R (mkOpt W G (zeros [R; R]))) by (split; auto).
  assert (Hc0 : forall (W0 : tensor N), lget W 0 = Ok W0 -> ncol W0 = R).
  { intros W0. rewrite (W_lget LA V R W 0) by (auto; fold o; lia). intros [= <-]. apply (W_dims V R W 0 HW). fold o; lia. }
  assert (HE0 : exists W0, lget W 0 = Ok W0 /\ ncol W0 = R).
  { rewrite (W_lget LA V R W 0) by (auto; fold o; lia). eexists; split; [reflexivity|]. apply (W_dims V R W 0 HW). fold o; lia. }
  destruct HE0 as (W0 & EW0 & EW1).
  assert (Hfin : forall St (step : St -> res (Q * St)) (base : St -> opt_st N) s0, seq_ok step base s0 ->
    exists k (stopped : bool) gn rows,
    keep base (cpd_als clk rank0 step base wf V tol limit maxsweep resprint bench s0 n0 x)
      = Ok (negb (Qeq_bool (sweeps_after q k) (inject_Z (maxsweep + 1))), method_state m LA lambda V R W G k, gn, rows) /\
    als_run clk (ck x) tol limit maxsweep resprint q Gf k stopped /\
    (stopped = true -> gn = grad_norm (Gf k)) /\
    rows = if rank0 then als_rows clk (ck x) V R tol q bench Wf Gf (checks q maxsweep resprint (k + if stopped then 1 else 0)%nat) else []).
  { intros St step base s0 Hs. destruct (cpd_als_ok RL clk rank0 step base s0 V R q Wf Gf Ho2 (proj2 Hs) tol limit maxsweep resprint bench Hrp (Qle_trans (1 # 8192) (4096 # 8192) _ ltac:(unfold Qle; cbn; lia) (proj2 part_pos)) (proj1 Hs) wf n0 x Hfl) as (k & stopped & c & E & Hrun & H1 & H2 & H3 & H4).
    exists k, stopped, (c_gn c), (c_rows c). unfold keep. rewrite E. cbn [bind]. rewrite H1, H2. unfold Wf, Gf. rewrite <- surjective_pairing. auto. }
  assert (HL : low_shaped (svd LA) (qr_q LA) (rnd LA)) by exact Hlow. clear Hlow.
  unfold cpd_run. assert (Hlens : forall n, (n < o)%nat -> nth n (lens V) 0%nat = size) by (intros n Hn; rewrite Hc; apply nth_rep; auto).
  destruct m as [| |k rs|k rs|] eqn:Em; cbn [method_ok] in Hm.
  - destruct (dt_new_ok V R ltac:(fold o; lia) _ HS) as (s0 & E0 & _). fold o in E0. rewrite E0. cbn [bind]. rewrite cpd_init_ok, EW0. cbn [bind]. rewrite EW1, (mk_regul_ok RL). cbn [bind].
    apply Hfin. split; [rewrite Em; apply dt_part|]. intros k. destruct (dt_steps_ok RL LA V R lambda Hsh ltac:(fold o; lia) o _ k ltac:(fold o; lia) HS) as (s0' & qq & s & E0' & E & Hg & _ & Hu).
    fold o in E0'. rewrite E0 in E0'. injection E0' as <-. apply (seq_ok_pair _ _ _ _ qq s); auto.
    + rewrite Em. apply dt_part.
    + apply Hg.
    + rewrite Em. cbn [method_state]. symmetry. exact Hu.
  - destruct (ms_new_ok V R ltac:(fold o; lia) _ HS) as (s0 & E0 & _). fold o in E0. rewrite E0. cbn [bind]. rewrite cpd_init_ok, EW0. cbn [bind]. rewrite EW1, (mk_regul_ok RL). cbn [bind].
    apply Hfin. split; [rewrite Em; apply ms_part|]. intros k. destruct (ms_steps_ok RL LA V R lambda Hsh ltac:(fold o; lia) o _ k ltac:(fold o; lia) HS) as (s0' & qq & s & E0' & E & Hg & _ & Hu).
    fold o in E0'. rewrite E0 in E0'. injection E0' as <-. apply (seq_ok_pair _ _ _ _ qq s); auto.
    + rewrite Em. apply ms_part.
    + apply Hg.
    + rewrite Em. cbn [method_state]. symmetry. exact Hu.
  - destruct (dl_new_ok V R ltac:(fold o; lia) k ltac:(lia) ltac:(intros n Hn; rewrite Hlens by auto; lia) _ HS) as (s0 & E0 & _). fold o in E0. rewrite E0. cbn [bind]. rewrite cpd_init_ok, EW0. cbn [bind]. rewrite EW1, (mk_regul_ok RL). cbn [bind].
    apply Hfin. split; [rewrite Em; apply dl_part|]. intros h. destruct (dl_steps_ok RL LA V R lambda Hsh HL ltac:(fold o; lia) rs k ltac:(lia) ltac:(intros n Hn; rewrite Hlens by auto; lia) o _ h (repeat tnil o) ltac:(fold o; lia) HS (repeat_length _ _))
      as (s0' & qq & s & E0' & E & Hg & _ & rf & _ & Hu).
    fold o in E0'. rewrite E0 in E0'. injection E0' as <-. apply (seq_ok_pair _ (fun s => ds (dlb s)) _ _ qq s); auto.
    + rewrite Em. apply dl_part.
    + apply Hg.
    + rewrite Em. cbn [method_state]. fold o. unfold absr in Hu. cbn [oW oG] in Hu. change (order V) with o in Hu. rewrite Hu. reflexivity.
  - destruct (ml_new_ok V R ltac:(fold o; lia) k ltac:(lia) ltac:(intros n Hn; rewrite Hlens by auto; lia) _ HS) as (s0 & E0 & _). fold o in E0. rewrite E0. cbn [bind]. rewrite cpd_init_ok, EW0. cbn [bind]. rewrite EW1, (mk_regul_ok RL). cbn [bind].
    apply Hfin. split; [rewrite Em; apply ml_part|]. intros h. destruct (ml_steps_ok RL LA V R lambda Hsh HL ltac:(fold o; lia) rs k ltac:(lia) ltac:(intros n Hn; rewrite Hlens by auto; lia) o _ h ltac:(fold o; lia) HS)
      as (s0' & qq & s & E0' & E & Hg & _ & Hu).
    fold o in E0'. rewrite E0 in E0'. injection E0' as <-. apply (seq_ok_pair _ (fun s => mss (mlb s)) _ _ qq s); auto.
    + rewrite Em. apply ml_part.
    + apply Hg.
    + rewrite Em. cbn [method_state]. fold o. unfold absr in Hu. cbn [oW oG] in Hu. change (order V) with o in Hu. rewrite Hu. reflexivity.
  - rewrite opt_seqV_ok by lia. cbn [bind]. rewrite cpd_init_ok, EW0. cbn [bind]. rewrite EW1, (mk_regul_ok RL). cbn [bind].
    apply Hfin. split; [rewrite Em; apply simple_part|]. intros k. destruct (simple_seq RL LA V R lambda Hsh size (mkOpt W G (zeros [R; R])) k ltac:(fold o; lia) Hc HS) as (qq & s & E & Hok & Hu).
    apply (seq_ok_pair _ fst _ _ qq (s, obuf o)); auto.
    + rewrite Em. apply simple_part.
    + rewrite Em. cbn [method_state]. symmetry. exact Hu.
Qed.
End R.
