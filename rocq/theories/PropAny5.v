(** C93: no CPD run fails or changes a shape, whatever the numbers, with each of the optimizers *)
From Coq Require Import List ZArith QArith Qround Lia Bool Arith SpecFloat.
From Verif Require Import Base Num NumF Tensor F64 Spec Spec3 Spec4 MCommon MCP MOpt MOptLR MCPD PBase PTensor PDrivers PPPDriver POpt POptTree POptEval POptStep PropOpt PCPD PCPD2
  PropNan PPar PPar2 PPar3 PPar4 PPar13 PPar14 POptLR POptLR2 PropOptLR PropAny.
Import ListNotations.
Local Close Scope Q_scope.

Section L.
Context {N : num} (clk : nat -> N) (rank0 : bool) (V : tensor N) (R : nat).
Let o := order V.
Notation U := (cp V).
Lemma measure_any_o W G x : (2 <= o <= 19)%nat -> factors_ok V W R -> length G = o ->
  exists pn dn dt x', measure clk V W G (obuf o) x = Ok (pn, dn, dt, x').
Proof.
  intros Ho HW HG. unfold measure, check_begin, wtime. fold o. destruct (sumnorm_any V G o HG) as (p & E). rewrite E. cbn [bind].
  assert (Ed := diffnorm_obuf Unum_ring (fun _ => tt) U (map cp W) R Ho (factors_cp V R W HW)).
  destruct (osim_run _ _ _ _ (diffnorm_sim V U W (map cp W) (obuf o) (factors_V V R W HW) (mats_sim V R W (factors_mats' V R W HW))) Ed) as (dn & E2 & _).
  rewrite E2. cbn [bind]. unfold check_end, wtime. eauto 6.
Qed.
Context {St : Type} (step : St -> res (Q * St)) (base : St -> opt_st N) (P : St -> Prop) (q : Q).
Context (tol limit : N) (maxsweep resprint : Z) (bench : bool).
Hypothesis Ho : (2 <= o <= 19)%nat.
Hypothesis HP : forall s, P s -> factors_ok V (oW (base s)) R /\ mats_ok V (oG (base s)) R.
Hypothesis Hstep : forall s, P s -> exists s', step s = Ok (q, s') /\ P s'.
Hypothesis Hrp : resprint <> 0%Z.
Definition why_stopped (k : nat) (gn : N) : Prop :=
  (maxsweep < Qfloor (sweeps_after q k))%Z \/
  (Qfloor (sweeps_after q k) <= maxsweep)%Z /\ (nltb gn tol = true \/ exists n s, nltb limit (nsub (clk n) s) = true).
Lemma cpd_loop_any : forall fuel k c, P (c_st c) -> (maxsweep < Qfloor (sweeps_after q (k + fuel)))%Z ->
  exists k' c', cpd_loop clk rank0 step base fuel V (obuf o) tol limit maxsweep resprint bench (Z.of_nat k) (sweeps_after q k) c
     = Ok (Z.of_nat k', sweeps_after q k', c') /\ P (c_st c') /\ why_stopped k' (c_gn c').
Proof.
  induction fuel as [|fuel IH]; intros k c Hc Hf; cbn [cpd_loop].
  - rewrite Nat.add_0_r in Hf. destruct (Z.leb_spec (Qfloor (sweeps_after q k)) maxsweep) as [|Hgt]; [lia|]. exists k, c. split; [reflexivity|]. split; [exact Hc|]. left. exact Hgt.
  - destruct (Z.leb_spec (Qfloor (sweeps_after q k)) maxsweep) as [Hle|Hgt].
    2:{ exists k, c. split; [reflexivity|]. split; [exact Hc|]. left. exact Hgt. }
    unfold zmod. destruct (Z.eqb_spec resprint 0) as [|_]; [contradiction|]. cbn [bind].
    destruct (HP _ Hc) as [HW [HL _]].
    assert (Hnext : forall c1, c_st c1 = c_st c -> exists k' c', 
      ('(q0, st) <- step (c_st c1) ;; cpd_loop clk rank0 step base fuel V (obuf o) tol limit maxsweep resprint bench (Z.of_nat k + 1) (rnd64 (sweeps_after q k + rnd64 q0)) (mkCpd st (c_gn c1) (c_io c1) (c_rows c1)))
        = Ok (Z.of_nat k', sweeps_after q k', c') /\ P (c_st c') /\ why_stopped k' (c_gn c')).
    { intros c1 E1. rewrite E1. destruct (Hstep _ Hc) as (s' & Es & Hs'). rewrite Es. cbn [bind]. rewrite <- sweeps_S. replace (Z.of_nat k + 1)%Z with (Z.of_nat (S k)) by lia.
      apply IH; [exact Hs'|]. replace (S k + fuel)%nat with (k + S fuel)%nat by lia. exact Hf. }
    destruct (_ || _ || _).
    + unfold cpd_check. destruct (measure_any_o (oW (base (c_st c))) (oG (base (c_st c))) (c_io c) Ho HW HL) as (pn & dn & dt & x' & Em).
      rewrite Em. cbn [bind]. destruct (stop_any clk limit pn tol x') as (stop & x'' & Es & Hs). rewrite Es. destruct stop.
      * cbn [bind]. eexists k, _. split; [reflexivity|]. cbn [c_st c_gn]. split; [exact Hc|]. right. split; [exact Hle|].
        destruct (Hs eq_refl) as [H|H]; [left; exact H|right; eauto].
      * cbn [bind]. apply Hnext. reflexivity.
    + cbn [bind]. apply Hnext. reflexivity.
Qed.
Lemma cpd_als_any fuel s0 gn x : P s0 -> (maxsweep < Qfloor (sweeps_after q fuel))%Z ->
  exists k c, cpd_als clk rank0 step base fuel V tol limit maxsweep resprint bench s0 gn x = Ok (negb (Qeq_bool (sweeps_after q k) (inject_Z (maxsweep + 1))), c) /\
    P (c_st c) /\ why_stopped k (c_gn c).
Proof.
  intros H0 Hf. unfold cpd_als. change (cpd_seqV (order V)) with (opt_seqV o). rewrite opt_seqV_ok by lia. cbn [bind]. unfold wtime.
  set (x0 := set_st _ _). destruct (cpd_loop_any fuel 0 (mkCpd s0 gn x0 []) H0 Hf) as (k & c & E & Hc & Hw).
  cbn [Z.of_nat] in E. change (sweeps_after q 0) with 0%Q in E. fold o. rewrite E. cbn [bind]. exists k, c. auto.
Qed.
End L.

Section New.
Context {N : num}.
Lemma dt_new_sim V R o (a : opt_st N) (b : opt_st Unum) : optR V R a b -> osim (dtR V R) (dt_new o a) (dt_new o b).
Proof.
  intros H. unfold dt_new. apply osim_bind_same; intros sq _. apply osim_bind_same; intros top _. apply osim_bind_same; intros t _.
  apply osim_bind_same; intros ix2 _. apply osim_ok. split; [exact H|reflexivity].
Qed.
Lemma ms_new_sim V R o (a : opt_st N) (b : opt_st Unum) : optR V R a b -> osim (msR V R) (ms_new o a) (ms_new o b).
Proof.
  intros H. unfold ms_new. apply osim_bind_same; intros sq _. apply osim_bind_same; intros top _. apply osim_bind_same; intros t _.
  apply osim_ok. split; [exact H|reflexivity].
Qed.
Lemma low0_sim : lowR (N := N) low0 low0.
Proof. repeat split; reflexivity. Qed.
Lemma dl_new_sim V R o (a : opt_st N) (b : opt_st Unum) : optR V R a b -> osim (dlR V R) (dl_new o a) (dl_new o b).
Proof.
  intros H. unfold dl_new. eapply osim_bind; [apply dt_new_sim; exact H|]. intros x y Hxy. apply osim_ok.
  split; [exact Hxy|]. split; [reflexivity|]. split; [apply low0_sim|]. split; exact I.
Qed.
Lemma nils_sim o : Forall2 (@tsim N Unum) (repeat tnil o) (repeat tnil o).
Proof. induction o; cbn [repeat]; constructor; [reflexivity|exact IHo]. Qed.
Lemma ml_new_sim V R o (a : opt_st N) (b : opt_st Unum) : optR V R a b -> osim (mlR V R) (ml_new o a) (ml_new o b).
Proof.
  intros H. unfold ml_new. eapply osim_bind; [apply ms_new_sim; exact H|]. intros x y Hxy. apply osim_ok.
  split; [exact Hxy|]. split; [reflexivity|]. split; [apply low0_sim|]. split; apply nils_sim.
Qed.
End New.

Section C93.
Context {N : num} (LA : lapack N) (Hsh : tri_shaped (cholesky LA) (solve_tri LA)) (Hlow : low_shaped (svd LA) (qr_q LA) (rnd LA)) (clk : nat -> N) (rank0 : bool).
Context (V : tensor N) (size R : nat) (W G : list (tensor N)).
Notation o := (order V).
Notation U := (cp V).
Hypothesis Hc : lens V = repeat size o.
Hypothesis HW : factors_ok V W R.
Hypothesis HG : mats_ok V G R.
Lemma init_any : cpd_init o size R V W = Ok tt.
Proof.
  unfold cpd_init. rewrite Nat.eqb_refl. cbn [cpd_assert bind].
  destruct (for_inv (fun _ (u : unit) => u = tt) (fun i (_ : unit) => l <- lget (lens V) i ;; _ <- cpd_assert (Nat.eqb l size) ;; Wi <- lget W i ;; cpd_assert (Nat.eqb (ncol Wi) R)) 0 o tt) as (u & E & Hu); auto.
  - lia.
  - intros i u Hi _. exists tt. split; [|auto]. rewrite Hc. rewrite (lget_ok _ _ 0) by (rewrite repeat_length; lia). cbn [bind]. rewrite nth_rep by lia. rewrite Nat.eqb_refl. cbn [cpd_assert bind].
    destruct (W_get V R W i HW ltac:(lia)) as (-> & _ & E). cbn [bind]. rewrite E, Nat.eqb_refl. reflexivity.
  - rewrite E. subst u. auto.
Qed.
Lemma optR_ok (a : opt_st N) (b : opt_st Unum) : optR V R a b -> factors_ok V (oW a) R /\ mats_ok V (oG a) R.
Proof.
  intros (H1 & H2 & _ & H4 & H5 & _). split; [|apply (mats_back V R _ _ H2 H5)]. split; [apply HW|]. apply (mats_back V R _ _ H1 H4).
Qed.
Lemma optR_ost (a : opt_st N) (b : opt_st Unum) : optR V R a b -> ost_ok U R b.
Proof. intros (H1 & H2 & H3 & H4 & H5 & H6). split; [|auto]. split; [apply (factors_V V R W HW)|exact H4]. Qed.
Lemma optR_init : optR V R (mkOpt W G (zeros [R; R])) (mkOpt (map cp W) (map cp G) (zeros [R; R])).
Proof.
  split; [apply (mats_sim V R), factors_mats'; exact HW|]. split; [apply (mats_sim V R); exact HG|]. split; [apply tsw_zeros|].
  split; [apply mats_cp, factors_mats'; exact HW|]. split; [apply mats_cp; exact HG|reflexivity].
Qed.

Theorem C93_runs_whatever_the_numbers : forall m lambda tol limit maxsweep resprint bench wf x,
  method_ok m o size R -> (0 <= maxsweep)%Z -> resprint <> 0%Z -> (2 * (Z.to_nat maxsweep + 1) <= wf)%nat ->
  exists ret Wf Gf gn rows k,
    cpd_run LA clk rank0 m wf o size R V W G lambda tol limit maxsweep resprint bench x = Ok (ret, (Wf, Gf), gn, rows) /\
    factors_ok V Wf R /\ mats_ok V Gf R /\
    ret = negb (Qeq_bool (sweeps_after (method_part m o) k) (inject_Z (maxsweep + 1))) /\
    ((maxsweep < Qfloor (sweeps_after (method_part m o) k))%Z \/
     (Qfloor (sweeps_after (method_part m o) k) <= maxsweep)%Z /\ (nltb gn tol = true \/ exists n s, nltb limit (nsub (clk n) s) = true)).
Proof.
  intros m lambda tol limit maxsweep resprint bench wf x Hm Hmax Hrp Hwf.
  assert (HV : Tensor.wf V) by apply HW.
  assert (Ho2 : (2 <= o <= 19)%nat) by (clear - Hm; destruct m; cbn [method_ok] in Hm; lia).
  assert (Hfl : (maxsweep < Qfloor (sweeps_after (method_part m o) wf))%Z).
  { apply Z.lt_le_trans with (maxsweep + 1)%Z; [lia|]. apply Z.le_trans with (Qfloor (inject_Z (maxsweep + 1))); [rewrite Qfloor_Z; lia|].
    apply Qfloor_resp_le. apply Qle_trans with (Z.of_nat wf * 4096 # 8192)%Q; [|apply sweeps_ge; apply (part_pos clk V size R m Hm)].
    unfold Qle, inject_Z. cbn [Qnum Qden]. clear - Hwf Hmax. lia. }
  destruct (W_get V R W 0 HW ltac:(lia)) as (EW0 & _ & EW1). destruct (mk_regul_any R lambda) as (rg & Erg & Hrg). assert (HRs := reg_sim R rg Hrg).
  assert (Hfin : forall St (step : St -> res (Q * St)) (base : St -> opt_st N) (P : St -> Prop) s0,
    (forall s, P s -> factors_ok V (oW (base s)) R /\ mats_ok V (oG (base s)) R) -> (forall s, P s -> exists s', step s = Ok (method_part m o, s') /\ P s') -> P s0 ->
    exists ret Wf Gf gn rows k,
    keep base (cpd_als clk rank0 step base wf V tol limit maxsweep resprint bench s0 n0 x) = Ok (ret, (Wf, Gf), gn, rows) /\
    factors_ok V Wf R /\ mats_ok V Gf R /\
    ret = negb (Qeq_bool (sweeps_after (method_part m o) k) (inject_Z (maxsweep + 1))) /\
    ((maxsweep < Qfloor (sweeps_after (method_part m o) k))%Z \/
     (Qfloor (sweeps_after (method_part m o) k) <= maxsweep)%Z /\ (nltb gn tol = true \/ exists n s, nltb limit (nsub (clk n) s) = true))).
  { intros St step base P s0 HP Hst H0.
    destruct (cpd_als_any clk rank0 V R step base P (method_part m o) tol limit maxsweep resprint bench Ho2 HP Hst Hrp wf s0 n0 x H0 Hfl) as (k & c & E & Hck & Hw).
    unfold keep. rewrite E. cbn [bind]. do 5 eexists. exists k. split; [reflexivity|]. destruct (HP _ Hck) as [K1 K2]. split; [exact K1|]. split; [exact K2|]. split; [reflexivity|exact Hw]. }
  assert (HS := optR_init). assert (HSu := optR_ost _ _ HS).
  assert (Hlens : forall n, (n < o)%nat -> nth n (lens V) 0%nat = size) by (intros n Hn; rewrite Hc; apply nth_rep; auto).
  unfold cpd_run. destruct m as [| |k rs|k rs|]; cbn [method_ok] in Hm.
  - assert (H3 : 3 <= order U <= 31) by (change (order U) with o; lia).
    destruct (dt_new_ok U R H3 _ HSu) as (s0' & E0' & Hg0' & _). change (order U) with o in E0'.
    destruct (dt_new_sim V R o _ _ HS _ E0') as (s0 & E0 & HR0). rewrite E0. cbn [bind]. rewrite init_any, EW0. cbn [bind]. rewrite EW1, Erg. cbn [bind].
    apply (Hfin _ _ _ (fun s => exists s' b, dtR V R s s' /\ dt_good U R s' b)).
    + intros s (s' & b & [K _] & _). apply (optR_ok _ _ K).
    + intros s (s' & b & K & Hg). destruct (dt_step_ok Unum_ring ULA2 U R tt ULA2_tri H3 o s' b ltac:(change (order U) with o; lia) Hg) as (s2' & E2' & Hg2 & _).
      destruct (dt_step_sim LA Hsh V R HV o rg (mscal (tt : Unum) (mid R)) s s' HRs K _ E2') as ([q2 s2] & E2 & Hq & K2). cbn [fst snd] in Hq, K2. subst q2.
      exists s2. split; [exact E2|]. eauto.
    + eauto.
  - assert (H3 : 3 <= order U <= 31) by (change (order U) with o; lia).
    destruct (ms_new_ok U R H3 _ HSu) as (s0' & E0' & Hg0' & _). change (order U) with o in E0'.
    destruct (ms_new_sim V R o _ _ HS _ E0') as (s0 & E0 & HR0). rewrite E0. cbn [bind]. rewrite init_any, EW0. cbn [bind]. rewrite EW1, Erg. cbn [bind].
    apply (Hfin _ _ _ (fun s => exists s' l, msR V R s s' /\ ms_good U R s' l /\ l <= o)).
    + intros s (s' & b & [K _] & _). apply (optR_ok _ _ K).
    + intros s (s' & l & K & Hg & Hl). destruct (ms_step_ok Unum_ring ULA2 U R tt ULA2_tri H3 o s' l ltac:(change (order U) with o; lia) Hg) as (s2' & E2' & Hg2 & _).
      destruct (ms_step_sim LA Hsh V R HV o rg (mscal (tt : Unum) (mid R)) s s' HRs K _ E2') as ([q2 s2] & E2 & Hq & K2). cbn [fst snd] in Hq, K2. subst q2.
      exists s2. split; [exact E2|]. exists s2'. eexists. split; [exact K2|]. split; [exact Hg2|]. change (order U) with o. apply Nat.lt_le_incl, Nat.mod_upper_bound. lia.
    + exists s0', o. auto.
  - assert (H3 : 3 <= order U <= 31) by (change (order U) with o; lia). assert (HkR : k <= R) by lia.
    assert (HkV : forall n, n < order V -> k <= nth n (lens V) 0) by (intros n Hn; rewrite Hlens by exact Hn; lia).
    destruct (dl_new_ok U R H3 k HkR HkV _ HSu) as (s0' & E0' & Hg0' & _). change (order U) with o in E0'.
    destruct (dl_new_sim V R o _ _ HS _ E0') as (s0 & E0 & HR0). rewrite E0. cbn [bind]. rewrite init_any, EW0. cbn [bind]. rewrite EW1, Erg. cbn [bind].
    apply (Hfin _ _ (fun s => ds (dlb s)) (fun s => exists s' q b, dlR V R s s' /\ dl_good U R k s' q b)).
    + intros s (s' & q & b & [[K _] _] & _). apply (optR_ok _ _ K).
    + intros s (s' & q & b & K & Hg).
      destruct (dl_step_ok Unum_ring ULA2 U R tt ULA2_tri ULA2_low H3 rs k HkR HkV o s' q b (repeat tnil o) ltac:(change (order U) with o; lia) (repeat_length _ _) Hg) as (s2' & rf & E2' & _ & Hg2 & _).
      destruct (dl_step_sim LA Hsh Hlow V R HV rs k HkR HkV o rg (mscal (tt : Unum) (mid R)) s s' HRs K _ E2') as ([q2 s2] & E2 & Hq & K2). cbn [fst snd] in Hq, K2. subst q2.
      exists s2. split; [exact E2|]. eauto.
    + eauto.
  - assert (H3 : 3 <= order U <= 31) by (change (order U) with o; lia). assert (HkR : k <= R) by lia.
    assert (HkV : forall n, n < order V -> k <= nth n (lens V) 0) by (intros n Hn; rewrite Hlens by exact Hn; lia).
    destruct (ml_new_ok U R H3 k HkR HkV _ HSu) as (s0' & E0' & Hg0' & _). change (order U) with o in E0'.
    destruct (ml_new_sim V R o _ _ HS _ E0') as (s0 & E0 & HR0). rewrite E0. cbn [bind]. rewrite init_any, EW0. cbn [bind]. rewrite EW1, Erg. cbn [bind].
    apply (Hfin _ _ (fun s => mss (mlb s)) (fun s => exists s' j, mlR V R s s' /\ ml_good U R k s' j)).
    + intros s (s' & j & [[K _] _] & _). apply (optR_ok _ _ K).
    + intros s (s' & j & K & Hg).
      destruct (ml_step_ok Unum_ring ULA2 U R tt ULA2_tri ULA2_low H3 rs k HkR HkV o s' j ltac:(change (order U) with o; lia) Hg) as (s2' & E2' & Hg2 & _).
      destruct (ml_step_sim LA Hsh Hlow V R HV rs k HkR HkV o rg (mscal (tt : Unum) (mid R)) s s' HRs K _ E2') as ([q2 s2] & E2 & Hq & K2). cbn [fst snd] in Hq, K2. subst q2.
      exists s2. split; [exact E2|]. eauto.
    + eauto.
  - rewrite opt_seqV_ok by lia. cbn [bind]. rewrite init_any, EW0. cbn [bind]. rewrite EW1, Erg. cbn [bind].
    apply (Hfin _ _ _ (fun s => exists s', optR V R (fst s) s' /\ snd s = obuf o)).
    + intros s (s' & K & _). apply (optR_ok _ _ K).
    + intros [s sq] (s' & K & Hq). cbn [fst snd] in K, Hq. subst sq.
      destruct (simple_step_ok Unum_ring ULA2 U R tt ULA2_tri s' size Hm Hc (optR_ost _ _ K)) as (s2' & E2' & _ & _). change (order U) with o in E2'.
      destruct (simple_step_sim LA Hsh V R HV rg (mscal (tt : Unum) (mid R)) (s, obuf o) (s', obuf o) HRs (conj K eq_refl) _ E2') as ([q2 [s2 sq2]] & E2 & Hq & K2 & Hq2).
      cbn [fst snd] in Hq, K2, Hq2. subst q2 sq2. exists (s2, obuf o). split; [exact E2|]. eexists. split; [exact K2|reflexivity].
    + eexists. split; [exact HS|reflexivity].
Qed.
End C93.

(** the hypotheses are met over binary64 by a tensor containing NaN and an infinity, and each optimizer completes on it *)
Definition c93_svd (S : tensor cn_N) (k : nat) := ((zeros [nrow S; k], zeros [k]), zeros [k; ncol S]) : tensor cn_N * tensor cn_N * tensor cn_N.
Definition c93_LA : lapack cn_N := @mkLapack cn_N c93_svd (fun A => A) (fun A _ _ _ _ => A) (fun A => A) (fun _ l => zeros l).
Theorem C93_case : tri_shaped (cholesky c93_LA) (solve_tri c93_LA) /\ low_shaped (svd c93_LA) (qr_q c93_LA) (rnd c93_LA) /\
  factors_ok ca_V cn_W 1 /\ mats_ok ca_V cn_G 1 /\ lens ca_V = repeat 2 (order ca_V) /\ In (S754_nan : cn_N) (data ca_V) /\
  forall m, In m [TwoSubtree; MultiSweep; TwoSubtreeLR 1 true; MultiSweepLR 1 false; Simple] -> method_ok m 4 2 1 /\
  exists ret Wf Gf gn rows,
    cpd_run c93_LA cn_clk true m 8 4 2 1 ca_V cn_W cn_G (cn_fl 0) (cn_fl 0) (cn_fl 9) 3 2 false (mkIo 0 (cn_fl 0) []) = Ok (ret, (Wf, Gf), gn, rows) /\ factors_ok ca_V Wf 1.
Proof.
  assert (Ht : tri_shaped (cholesky c93_LA) (solve_tri c93_LA)) by (split; cbn; auto).
  assert (Hl0 : low_shaped (svd c93_LA) (qr_q c93_LA) (rnd c93_LA)).
  { split; [|split]; cbn; auto; [|intros; apply zeros_mat]. intros X r c k [E _] _ _. unfold nrow, ncol. rewrite E. cbn.
    split; [apply zeros_mat|]. split; [reflexivity|]. split; [apply tab_wf'|apply zeros_mat]. }
  destruct C89_case as (_ & HW & _ & HG & Hl & _). split; [exact Ht|]. split; [exact Hl0|]. split; [exact HW|]. split; [exact HG|]. split; [exact Hl|]. split; [left; reflexivity|].
  intros m Hf. assert (Hm : method_ok m 4 2 1) by (repeat destruct Hf as [<-|Hf]; try destruct Hf; cbn; lia). split; [exact Hm|].
  destruct (C93_runs_whatever_the_numbers c93_LA Ht Hl0 cn_clk true ca_V 2 1 cn_W cn_G Hl HW HG m (cn_fl 0) (cn_fl 0) (cn_fl 9) 3 2 false 8 (mkIo 0 (cn_fl 0) []) Hm ltac:(lia) ltac:(lia) ltac:(cbn; lia))
    as (ret & Wf & Gf & gn & rows & k & E & K & _).
  exists ret, Wf, Gf, gn, rows. split; [exact E|exact K].
Qed.
