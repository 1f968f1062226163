(** CPD::als: the loop *)
From Coq Require Import List ZArith QArith Qround Lia Bool Arith Ring.
From Verif Require Import Base Num Tensor Spec F64 Spec4 MCommon MCP MOpt MCPD PBase PTensor PSum PMat PMttkrp PMatAlg PSolve PGrad PBuildV PDT PDTSweep PDrivers
  POpt POptTree POptEval POptStep PropOpt.
Import ListNotations.
Local Close Scope Q_scope.

Lemma sweeps_S q k : sweeps_after q (S k) = rnd64 (sweeps_after q k + rnd64 q).
Proof. reflexivity. Qed.
Lemma sweeps_ge q m k : (m # 8192 <= q)%Q -> (Z.of_nat k * m # 8192 <= sweeps_after q k)%Q.
Proof.
  intros H. induction k as [|k IH]; [unfold sweeps_after, Qle; cbn; lia|]. rewrite sweeps_S. apply rnd64_ge.
  apply Qle_trans with ((Z.of_nat k * m # 8192) + (m # 8192))%Q; [unfold Qle; cbn [Qnum Qden Qplus]; lia|].
  apply Qplus_le_compat; [exact IH|apply rnd64_ge; exact H].
Qed.
Lemma sweeps_le_mul q m k : (q <= m # 8192)%Q -> (sweeps_after q k <= Z.of_nat k * m # 8192)%Q.
Proof.
  intros H. induction k as [|k IH]; [unfold sweeps_after, Qle; cbn; lia|]. rewrite sweeps_S. apply rnd64_le.
  apply Qle_trans with ((Z.of_nat k * m # 8192) + (m # 8192))%Q; [|unfold Qle; cbn [Qnum Qden Qplus]; lia].
  apply Qplus_le_compat; [exact IH|apply rnd64_le; exact H].
Qed.
(** the additions are exact if q is a multiple of 2^-13 *)
Lemma sweeps_after_eq q m k : (q == m # 8192)%Q -> (sweeps_after q k == inject_Z (Z.of_nat k) * q)%Q.
Proof.
  intros H. apply Qeq_trans with (Z.of_nat k * m # 8192)%Q; [|rewrite H; unfold Qeq, inject_Z; cbn [Qnum Qden Qmult]; lia].
  apply Qle_antisym; [apply sweeps_le_mul|apply sweeps_ge]; rewrite H; apply Qle_refl.
Qed.
(** the exact sum of k steps *)
Definition exact_sum (q : Q) (k : nat) : Q := Nat.iter k (fun s => (s + q)%Q) 0%Q.

Lemma checks_S q ms rp n : checks q ms rp (S n) = checks q ms rp n ++ (if checked_at q ms rp n then [n] else []).
Proof. unfold checks. rewrite seq_S, filter_app. cbn. destruct (checked_at q ms rp n); auto. Qed.
Lemma checked_at_0 q ms rp : checked_at q ms rp 0 = true.
Proof. unfold checked_at. cbn. destruct rp; reflexivity. Qed.

(** what als writes: one row per check (bench: not for the first) *)
Definition als_rows {N : num} (clk : nat -> N) (t0 : nat) (V : tensor N) (R : nat) (tol : N) (q : Q) (bench : bool)
  (Wf Gf : nat -> list (tensor N)) (cs : list nat) : list (crow N) :=
  if bench then map (fun j => CBench (reported_time clk t0 j)) (seq 1 (length cs - 1))
  else map (fun j => let i := nth j cs 0 in
         CRow (nth 0 (lens V) 0) (sweeps_after q i) (grad_norm (Gf i)) tol (resid_norm V (Wf i) R) (reported_time clk t0 j)) (seq 0 (length cs)).

Section P.
Context {N : num} (RL : ring_laws N) (clk : nat -> N) (rank0 : bool).
Local Open Scope num_scope.
Lemma diffnorm_obuf (V : tensor N) W R : (2 <= order V <= 19)%nat -> factors_ok V W R ->
  diffnorm V W (obuf (order V)) = Ok (resid_norm V W R).
Proof.
  intros Ho HW. rewrite <- (diffnorm_ok RL clk V W R Ho HW). unfold diffnorm. assert (HWc := factors_cols V W R HW).
  rewrite (build_V_ok RL W R (order V)); [|lia|destruct HW as (_ & -> & _); auto|intros m Hm; apply HWc; destruct HW as (_ & -> & _); lia|lia].
  cbn [bind]. rewrite obuf_take, lbuf_take by lia. cbn [bind].
  replace (order (cp_full W R)) with (order V); [rewrite obuf_take, lbuf_take by lia; reflexivity|].
  unfold order. cbn [lens]. unfold cp_full. cbn [lens tabulate]. rewrite map_length. destruct HW as (_ & -> & _). reflexivity.
Qed.
Context {St : Type} (step : St -> res (Q * St)) (base : St -> opt_st N) (s0 : St).
Context (V : tensor N) (R : nat) (q : Q) (Wf Gf : nat -> list (tensor N)).
Hypothesis Ho : (2 <= order V <= 19)%nat.
Hypothesis Hsteps : forall k, exists s, steps k step s0 = Ok (exact_sum q k, s) /\ oW (base s) = Wf k /\ oG (base s) = Gf k /\
  factors_ok V (Wf k) R /\ length (Gf k) = order V.
Context (tol limit : N) (maxsweep resprint : Z) (bench : bool).
Hypothesis Hrp : resprint <> 0%Z.
Hypothesis Hq : ((1 # 8192) <= q)%Q.
Hypothesis Hpart : forall s q' s', step s = Ok (q', s') -> q' = q.
Lemma step_at k s s' : steps k step s0 = Ok (exact_sum q k, s) -> steps (S k) step s0 = Ok (exact_sum q (S k), s') -> step s = Ok (q, s').
Proof.
  intros E E'. cbn [steps] in E'. rewrite E in E'. cbn [bind] in E'. destruct (step s) as [[q' s1]|] eqn:Es; [|discriminate]. cbn [bind] in E'.
  apply Hpart in Es as Eq. congruence.
Qed.
Section run.
Context (t0 : nat).
Let cs n := checks q maxsweep resprint n.
Let stop i := stops_at (out_of_time clk t0 limit) (fun i => grad_norm (Gf i)) tol maxsweep resprint q i.
Let rows n := if rank0 then als_rows clk t0 V R tol q bench Wf Gf (cs n) else [].
(** the state at the head of the loop before step k *)
Definition at_head (k : nat) (c : cpd N St) : Prop :=
  steps k step s0 = Ok (exact_sum q k, c_st c) /\
  ck (c_io c) = (t0 + 1 + 4 * length (cs k))%nat /\ st_time (c_io c) = corrected_start clk t0 (length (cs k)) /\
  c_rows c = rows k /\ (forall i, (i < k)%nat -> (Qfloor (sweeps_after q i) <= maxsweep)%Z /\ stop i = false).
Lemma cs_nth k j d : (j < length (cs k))%nat -> nth j (cs (S k)) d = nth j (cs k) d.
Proof. intros H. unfold cs. rewrite checks_S. apply app_nth1. auto. Qed.
Lemma rows_S k : checked_at q maxsweep resprint k = true ->
  rows (S k) = rows k ++ (if rank0 then if bench then (if Z.eqb (Z.of_nat k) 0 then [] else [CBench (reported_time clk t0 (length (cs k)))])
    else [CRow (nth 0 (lens V) 0%nat) (sweeps_after q k) (grad_norm (Gf k)) tol (resid_norm V (Wf k) R) (reported_time clk t0 (length (cs k)))] else []).
Proof.
  intros Hc. unfold rows. destruct rank0; [|reflexivity].
  assert (Hlen : length (cs (S k)) = S (length (cs k))) by (unfold cs; rewrite checks_S, Hc, app_length; cbn; lia).
  unfold als_rows. rewrite Hlen. destruct bench.
  - destruct k as [|k].
    + reflexivity.
    + assert (HL : (1 <= length (cs (S k)))%nat).
      { unfold cs, checks. cbn [seq filter]. rewrite checked_at_0. cbn. lia. }
      replace (S (length (cs (S k))) - 1)%nat with (S (length (cs (S k)) - 1)) by lia. rewrite seq_S, map_app. cbn [map].
      replace (Z.of_nat (S k) =? 0)%Z with false by (symmetry; apply Z.eqb_neq; lia).
      do 3 f_equal. f_equal. clear -HL. lia.
  - rewrite seq_S, map_app. cbn [map Nat.add]. f_equal.
    + apply map_ext_in. intros j Hj. apply in_seq in Hj. rewrite cs_nth by lia. reflexivity.
    + replace (nth (length (cs k)) (cs (S k)) 0%nat) with k; [reflexivity|]. unfold cs. rewrite checks_S, Hc, nth_middle. reflexivity.
Qed.
Lemma cpd_loop_ok : forall fuel k c, at_head k c -> (maxsweep < Qfloor (sweeps_after q (k + fuel)))%Z ->
  exists k' (stopped : bool) c', cpd_loop clk rank0 step base fuel V (obuf (order V)) tol limit maxsweep resprint bench (Z.of_nat k) (sweeps_after q k) c
     = Ok (Z.of_nat k', sweeps_after q k', c') /\ (k <= k')%nat /\
    als_run clk t0 tol limit maxsweep resprint q Gf k' stopped /\ steps k' step s0 = Ok (exact_sum q k', c_st c') /\
    (stopped = true -> c_gn c' = grad_norm (Gf k')) /\
    c_rows c' = rows (k' + if stopped then 1 else 0)%nat.
Proof.
  induction fuel as [|fuel IH]; intros k c Hh Hf.
  - rewrite Nat.add_0_r in Hf. exists k, false, c. cbn [cpd_loop].
    destruct (Z.leb_spec (Qfloor (sweeps_after q k)) maxsweep); [lia|]. split; [auto|]. split; [auto|].
    destruct Hh as (E & _ & _ & Hr & Hi). rewrite Nat.add_0_r. split; [|split; [auto|split; [discriminate|auto]]].
    split; [exact Hi|exact Hf].
  - cbn [cpd_loop]. destruct (Z.leb_spec (Qfloor (sweeps_after q k)) maxsweep) as [Hle|Hgt].
    2:{ exists k, false, c. split; [auto|]. split; [auto|].
      destruct Hh as (E & _ & _ & Hr & Hi). rewrite Nat.add_0_r. split; [|split; [auto|split; [discriminate|auto]]].
      split; [exact Hi|exact Hgt]. }
    unfold zmod. destruct (Z.eqb_spec resprint 0); [contradiction|]. cbn [bind].
    destruct Hh as (E & Hck & Hst & Hr & Hi).
    destruct (Hsteps k) as (s & E2 & HW & HG & Hfac & HL). rewrite E in E2. injection E2 as E2. subst s.
    assert (Hz : Qeq_bool (sweeps_after q k) 0 = true -> k = 0%nat).
    { intros Hz. apply Qeq_bool_eq in Hz. destruct k as [|k]; auto. exfalso. pose proof (sweeps_ge q 1 (S k) Hq) as Hge. rewrite Hz in Hge.
      unfold Qle in Hge. cbn [Qnum Qden] in Hge. lia. }
    replace ((Z.rem (Z.of_nat k) resprint =? 0)%Z || Qle_bool (inject_Z maxsweep) (sweeps_after q k) || Qeq_bool (sweeps_after q k) 0)
      with (checked_at q maxsweep resprint k).
    2:{ fold (checked_at q maxsweep resprint k). destruct (Qeq_bool (sweeps_after q k) 0) eqn:Ez; [|rewrite orb_false_r; auto].
        rewrite (Hz eq_refl), checked_at_0. reflexivity. }
    destruct (checked_at q maxsweep resprint k) eqn:Hc.
    + unfold cpd_check. unfold measure, check_begin, wtime. rewrite HW, HG.
      rewrite (sumnorm_ok RL clk) by auto. cbn [bind]. rewrite (diffnorm_obuf V (Wf k) R) by auto. cbn [bind]. unfold check_end, wtime. cbn [ck st_time MCP.rows set_st bind].
      rewrite Hck, Hst.
      set (m := length (cs k)) in *. cbv beta iota.
      replace (corrected_start clk t0 m + (clk (S (t0 + 1 + 4 * m)) - clk (t0 + 1 + 4 * m))) with (corrected_start clk t0 (m + 1)%nat).
      2:{ replace (m + 1)%nat with (S m) by lia. cbn [corrected_start]. replace (t0 + 4 * m + 2)%nat with (S (t0 + 1 + 4 * m)) by lia.
          replace (t0 + 4 * m + 1)%nat with (t0 + 1 + 4 * m)%nat by lia. reflexivity. }
      replace (clk (S (S (t0 + 1 + 4 * m))) - corrected_start clk t0 (m + 1)%nat) with (reported_time clk t0 m)
        by (unfold reported_time; replace (t0 + 4 * m + 3)%nat with (S (S (t0 + 1 + 4 * m))) by lia; reflexivity).
      unfold stop_test, wtime. cbn [ck st_time MCP.rows].
      set (x1 := mkIo (S (S (S (t0 + 1 + 4 * m)))) _ _).
      assert (Hlen : length (cs (S k)) = S m) by (unfold cs; rewrite checks_S, Hc, app_length; cbn [length]; unfold m, cs; lia).
      assert (Hstop : stop k = (nltb (grad_norm (Gf k)) tol || nltb limit (clk (S (S (S (t0 + 1 + 4 * m)))) - corrected_start clk t0 (m + 1)%nat))).
      { unfold stop, stops_at. rewrite Hc. cbn [andb]. fold (cs k). fold m. unfold out_of_time. replace (t0 + 4 * m + 4)%nat with (S (S (S (t0 + 1 + 4 * m)))) by lia. reflexivity. }
      set (x2 := mkIo (S (S (S (S (t0 + 1 + 4 * m))))) (corrected_start clk t0 (m + 1)%nat) (MCP.rows (c_io c))).
      replace (if nltb (grad_norm (Gf k)) tol then (true, x1) else (nltb limit (clk (S (S (S (t0 + 1 + 4 * m)))) - corrected_start clk t0 (m + 1)%nat), x2))
        with (stop k, if nltb (grad_norm (Gf k)) tol then x1 else x2).
      2:{ rewrite Hstop. destruct (nltb (grad_norm (Gf k)) tol); reflexivity. }
      cbn [bind]. rewrite Hr, <- rows_S by auto. destruct (stop k) eqn:Est.
      * exists k, true. eexists. split; [reflexivity|]. split; [auto|]. cbn [c_st c_gn c_rows].
        replace (k + 1)%nat with (S k) by lia. split; [|auto].
        split; [exact Hi|split; [exact Hle|exact Est]].
      * destruct (Hsteps (S k)) as (s' & E' & _). assert (Es := step_at k _ _ E E'). cbn [c_st]. rewrite Es. cbn [bind c_gn c_io c_rows].
        rewrite <- sweeps_S. replace (Z.of_nat k + 1)%Z with (Z.of_nat (S k)) by lia.
        destruct (IH (S k) (mkCpd s' (grad_norm (Gf k)) (if nltb (grad_norm (Gf k)) tol then x1 else x2) (rows (S k)))) as (k' & stopped & c' & El & Hk & Hrest).
        { unfold at_head. cbn [c_st c_io c_rows]. split; [auto|]. rewrite Hlen.
          assert (Hn : nltb (grad_norm (Gf k)) tol = false) by (destruct (nltb (grad_norm (Gf k)) tol); [rewrite Hstop in Est; discriminate|auto]).
          rewrite Hn. cbn [ck st_time x2]. split; [clear; lia|]. split; [unfold x2; cbn [st_time]; replace (m + 1)%nat with (S m) by lia; reflexivity|]. split; [reflexivity|].
          intros i Hi'. destruct (Nat.eq_dec i k) as [->|]; [auto|apply Hi; lia]. }
        { replace (S k + fuel)%nat with (k + S fuel)%nat by lia. auto. }
        exists k', stopped, c'. split; [exact El|]. split; [lia|]. exact Hrest.
    + cbn [bind]. destruct (Hsteps (S k)) as (s' & E' & _). assert (Es := step_at k _ _ E E'). rewrite Es. cbn [bind].
      rewrite <- sweeps_S. replace (Z.of_nat k + 1)%Z with (Z.of_nat (S k)) by lia.
      assert (Hcs : cs (S k) = cs k) by (unfold cs; rewrite checks_S, Hc, app_nil_r; auto).
      destruct (IH (S k) (mkCpd s' (c_gn c) (c_io c) (c_rows c))) as (k' & stopped & c' & El & Hk & Hrest).
      { unfold at_head. cbn [c_st c_io c_rows]. unfold rows. rewrite Hcs. split; [auto|]. split; [auto|]. split; [auto|]. split; [exact Hr|].
        intros i Hi'. destruct (Nat.eq_dec i k) as [->|]; [|apply Hi; lia]. split; [exact Hle|]. unfold stop, stops_at. rewrite Hc. reflexivity. }
      { replace (S k + fuel)%nat with (k + S fuel)%nat by lia. auto. }
      exists k', stopped, c'. split; [exact El|]. split; [lia|]. exact Hrest.
Qed.
End run.
Theorem cpd_als_ok fuel gn x : (maxsweep < Qfloor (sweeps_after q fuel))%Z ->
  exists k (stopped : bool) c, 
    cpd_als clk rank0 step base fuel V tol limit maxsweep resprint bench s0 gn x = Ok (negb (Qeq_bool (sweeps_after q k) (inject_Z (maxsweep + 1))), c) /\
    als_run clk (ck x) tol limit maxsweep resprint q Gf k stopped /\
    oW (base (c_st c)) = Wf k /\ oG (base (c_st c)) = Gf k /\ (stopped = true -> c_gn c = grad_norm (Gf k)) /\
    c_rows c = if rank0 then als_rows clk (ck x) V R tol q bench Wf Gf (checks q maxsweep resprint (k + if stopped then 1 else 0)%nat) else [].
Proof.
  intros Hf. unfold cpd_als. change (cpd_seqV (order V)) with (opt_seqV (order V)). rewrite opt_seqV_ok by lia. cbn [bind]. unfold wtime. 
  set (x0 := set_st _ _).
  destruct (cpd_loop_ok (ck x) fuel 0 (mkCpd s0 gn x0 [])) as (k & stopped & c & E & _ & Hrun & Est & Hg & Hrows); auto.
  { unfold at_head. cbn [c_st c_io c_rows]. split; [reflexivity|]. unfold checks. cbn [seq filter length]. split; [cbn; lia|]. split; [reflexivity|].
    split; [unfold als_rows; destruct rank0, bench; reflexivity|]. intros; lia. }
  cbn [Z.of_nat] in E. change (sweeps_after q 0) with 0%Q in E. rewrite E. cbn [bind]. exists k, stopped, c. split; [reflexivity|]. split; [auto|].
  destruct (Hsteps k) as (s & E2 & HW & HG & _). rewrite Est in E2. injection E2 as <-. auto.
Qed.
End P.
