(** The Tucker drivers alsTucker and alsTucker_DT: complete runs *)
From Coq Require Import List ZArith QArith Lia Bool Arith Permutation Ring.
From Verif Require Import Base Num Tensor Spec Spec4 Spec7 Spec8 MCommon MCP MTucker PBase PTensor PSum PMttkrp PPart PMat PKhatri PGrad PDT PDrivers PDrivers2
  PTree PBuildV PTtm PTucker PHosvd PTDT PSign PTSweep.
Import ListNotations.
Local Close Scope Q_scope.

Lemma for_iter_tk {N : num} {St} (late : nat -> bool) chk (change : nat -> N) tol maxiter (I E : nat -> St -> Prop) body s :
  (0 <= maxiter)%Z -> I 0 s ->
  (forall k s, (Z.of_nat k <= maxiter)%Z -> I k s ->
     if tk_stops late chk change tol k then exists s', body (Z.of_nat k) s = Ok (Break, s') /\ E k s'
     else exists s', body (Z.of_nat k) s = Ok (Go, s') /\ I (S k) s') ->
  exists k (stopped : bool) s', for_iter (rounds 0 maxiter) 0 body s = Ok (if stopped then Break else Go, Z.of_nat k, s') /\
    tk_run_spec late chk change tol maxiter k stopped /\ (if stopped then E k s' else I k s').
Proof.
  intros Hmax H0 Hb.
  destruct (for_iter_run (fun k s => I k s /\ forall i, i < k -> tk_stops late chk change tol i = false)
    (fun f k s => f = Break /\ E k s /\ tk_stops late chk change tol k = true /\ forall i, i < k -> tk_stops late chk change tol i = false)
    body (rounds 0 maxiter) 0 0%Z s) as (f & k & s' & Ef & Hf).
  - split; [exact H0|]. intros; lia.
  - intros k s1 Hk [HI Hs]. unfold rounds in Hk. specialize (Hb k s1 ltac:(lia) HI). rewrite Z.add_0_l, Nat.sub_0_r.
    destruct (tk_stops late chk change tol k) eqn:Es; destruct Hb as (s2 & E1 & E2).
    + exists Break, s2. auto.
    + exists Go, s2. split; [exact E1|]. split; [exact E2|]. intros i Hi. destruct (Nat.eq_dec i k) as [->|]; [auto|apply Hs; lia].
  - rewrite Z.add_0_l, Nat.sub_0_r in Ef. unfold rounds in Hf. destruct f.
    + destruct Hf as [Hk [HI Hs]]. exists k, false, s'. split; [exact Ef|]. split; [|exact HI]. split; [exact Hs|lia].
    + destruct Hf as [Hk (_ & HE & Hs1 & Hs)]. exists k, true, s'. split; [exact Ef|]. split; [|exact HE]. split; [exact Hs|split; [lia|auto]].
    + destruct Hf as [_ [Hf _]]. discriminate.
Qed.
Lemma tk_ret {N : num} (late : nat -> bool) chk (change : nat -> N) tol maxiter k stopped :
  tk_run_spec late chk change tol maxiter k stopped -> negb (Z.of_nat k =? maxiter + 1)%Z = stopped.
Proof.
  intros [_ H]. destruct stopped.
  - destruct H as [H _]. destruct (Z.eqb_spec (Z.of_nat k) (maxiter + 1)); [lia|auto].
  - destruct (Z.eqb_spec (Z.of_nat k) (maxiter + 1)); [auto|lia].
Qed.
Lemma checked_below_S chk k : checked_below chk (S k) = checked_below chk k ++ (if chk k then [k] else []).
Proof. unfold checked_below. rewrite seq_S, filter_app. cbn [filter Nat.add]. destruct (chk k); auto. Qed.

Section P.
Context {N : num} (RL : ring_laws N) (LA : lapack N).
Let RT : ring_theory (@n0 N) n1 nadd nmul nsub nopp (@eq N) := RL.
Add Ring NringTD : RT.
Local Open Scope num_scope.
Context (clk : nat -> N) (rank0 : bool).

Lemma assign_diff (C A B : tensor N) (s : str) : NoDup s -> length s = order A -> wf A -> wf B -> lens C = lens A -> lens B = lens A ->
  assign false C s [mkTerm n1 [(A, s)]; mkTerm (- n1) [(B, s)]] = Ok (msub A B).
Proof.
  intros Hs Ls HA HB LC LB. set (d := dl s (lens A) []).
  assert (Hds : map d s = lens A) by (apply dl_base; auto).
  destruct (assign_rep d false C s [mkTerm n1 [(A, s)]; mkTerm (- n1) [(B, s)]]) as (D & E & HD); auto.
  { rewrite Hds. auto. }
  { intros t [<-|[<-|[]]] p [<-|[]]; cbn [fst snd]; rewrite Hds; auto. }
  rewrite E. f_equal. destruct HD as (H1 & H2 & H3). apply tensor_ext; auto.
  - apply tabulate_wf.
  - rewrite H2. cbn. auto.
  - rewrite H2. intros idx Hidx. destruct (inb_env d s idx) as (e & <- & He); auto.
    rewrite H3 by auto. unfold msub. rewrite at_tabulate by (rewrite <- Hds; apply inb_map; auto).
    unfold tsval, tval. cbn [fold_left facs coef]. rewrite !contracted_self. cbn. ring.
Qed.

Section V.
Context (V : tensor N) (ranks : list nat).
Let o := order V.
Hypothesis Ho : (2 <= o <= 10)%nat.

Lemma core_lens W : tucker_ok V W ranks -> lens (tucker_core V W) = ranks.
Proof.
  intros (_ & _ & LR & HM). cbn. apply nth_eq_ext with (d:=0%nat); [rewrite ttmc_lens_length; auto|]. intros m Hm. rewrite ttmc_lens_length in Hm.
  rewrite ttmc_lens_nth by auto. replace (existsb (Nat.eqb m) (seq 0 (order V))) with true.
  2:{ symmetry. apply existsb_exists. exists m. rewrite in_seq, Nat.eqb_refl. split; auto. lia. }
  apply (mat_ncol _ _ _ (HM m Hm)).
Qed.
Lemma core_order W : tucker_ok V W ranks -> order (tucker_core V W) = o.
Proof. intros. apply ttmc_order. Qed.
Lemma mtrans_mat (A : tensor N) r c : is_mat A r c -> is_mat (mtrans A) c r.
Proof. intros [H _]. split; [|apply tabulate_wf]. cbn. unfold ncol, nrow. rewrite H. auto. Qed.
Lemma full_ok W : tucker_ok V W ranks -> tucker_ok (tucker_core V W) (map mtrans W) (lens V).
Proof.
  intros HW. pose proof HW as (HV & LW & LR & HM). split; [apply tabulate_wf|]. rewrite core_order by auto. split; [rewrite map_length; auto|].
  split; [reflexivity|]. intros m Hm. rewrite core_lens by auto. unfold fac. rewrite (nth_map_lt _ _ _ tnil) by (rewrite LW; auto).
  apply mtrans_mat, HM. auto.
Qed.
Lemma full_lens W : tucker_ok V W ranks -> lens (tucker_full (tucker_core V W) W) = lens V.
Proof.
  intros HW. pose proof (full_ok W HW) as (_ & _ & _ & HF). pose proof HW as (HV & LW & LR & HM). unfold tucker_full. cbn [ttmc tabulate lens].
  apply nth_eq_ext with (d:=0%nat); [rewrite ttmc_lens_length, core_order; auto|].
  rewrite ttmc_lens_length. intros m Hm. rewrite ttmc_lens_nth by auto.
  replace (existsb (Nat.eqb m) (seq 0 _)) with true.
  2:{ symmetry. apply existsb_exists. exists m. rewrite in_seq, Nat.eqb_refl. split; auto. lia. }
  apply (mat_ncol _ _ _ (HF m Hm)).
Qed.
Lemma core_TTMc (Y : tensor N) W : tucker_ok V W ranks -> TTMc Y V W None = Ok (tucker_core V W).
Proof.
  intros HW. rewrite (TTMc_ok RL Y V W None); auto; [eapply tucker_shapes; eauto|fold o; lia|].
  cbn [contracted_modes]. fold o. destruct o; [lia|discriminate].
Qed.
Lemma full_TTMc (Y : tensor N) W : tucker_ok V W ranks ->
  TTMc Y (tucker_core V W) (map mtrans W) None = Ok (tucker_full (tucker_core V W) W).
Proof.
  intros HW. rewrite (TTMc_ok RL Y (tucker_core V W) (map mtrans W) None); auto.
  - eapply tucker_shapes. apply full_ok; auto.
  - rewrite core_order by auto. lia.
  - cbn [contracted_modes]. rewrite core_order by auto. destruct o; [lia|discriminate].
Qed.

Lemma transposes W : tucker_ok V W ranks ->
  for_ 0 o (fun i acc => Wi <- lget W i ;; T <- assign false (zeros [ncol Wi; nrow Wi]) sij [prodt [(Wi, sji)]] ;; Ok (acc ++ [T])) []
  = Ok (map mtrans W).
Proof.
  intros (HV & LW & LR & HM).
  destruct (for_inv (fun i acc => acc = map mtrans (firstn i W))
    (fun i acc => Wi <- lget W i ;; T <- assign false (zeros [ncol Wi; nrow Wi]) sij [prodt [(Wi, sji)]] ;; Ok (acc ++ [T])) 0 o []) as (acc & E & ->).
  - lia.
  - reflexivity.
  - intros i acc Hi ->. rewrite (lget_ok W i tnil) by (rewrite LW; fold o; lia). cbn [bind]. fold (fac W i).
    pose proof (HM i ltac:(fold o; lia)) as (Lm & _).
    rewrite (assign_trans RL _ _ (ncol (fac W i)) (nrow (fac W i))); [|reflexivity|].
    2:{ unfold nrow, ncol. rewrite Lm. auto. }
    cbn [bind]. eexists. split; [reflexivity|]. rewrite (firstn_snoc_nth _ _ tnil) by (rewrite LW; fold o; lia). rewrite map_app. auto.
  - rewrite E. rewrite firstn_all2 by (rewrite LW; auto). auto.
Qed.

Lemma tk_measure_ok (core prev : tensor N) W x t0 j : tucker_ok V W ranks ->
  ck x = (t0 + 1 + 4 * j)%nat -> st_time x = corrected_start clk t0 j ->
  tk_measure clk V core prev W x = Ok (tucker_core V W, nabs (norm2 (tucker_core V W) - norm2 prev), tucker_resid V W,
     reported_time clk t0 j, mkIo (t0 + 4 * j + 4) (corrected_start clk t0 (j + 1)) (rows x)).
Proof.
  intros HW Hck Hst. unfold tk_measure, check_begin, wtime. fold o. rewrite core_TTMc by auto. cbn [bind].
  rewrite transposes by auto. cbn [bind]. rewrite full_TTMc by auto. cbn [bind]. rewrite mk_seqV_ok. cbn [bind].
  rewrite lbuf_take. cbn [bind]. unfold order at 1. rewrite full_lens by auto. fold (order V). fold o. rewrite lbuf_take. cbn [bind].
  pose proof HW as (HV & _).
  rewrite assign_diff; auto.
  - cbn [bind]. unfold check_end, wtime. cbn [ck st_time rows set_st]. rewrite Hck, Hst.
    replace (corrected_start clk t0 j + (clk (S (t0 + 1 + 4 * j)) - clk (t0 + 1 + 4 * j))) with (corrected_start clk t0 (j + 1)%nat).
    2:{ replace (j + 1)%nat with (S j) by lia. cbn [corrected_start]. replace (t0 + 4 * j + 2)%nat with (S (t0 + 1 + 4 * j)) by lia.
        replace (t0 + 4 * j + 1)%nat with (t0 + 1 + 4 * j)%nat by lia. reflexivity. }
    unfold reported_time, tucker_resid. replace (t0 + 4 * j + 3)%nat with (S (S (t0 + 1 + 4 * j))) by lia. do 2 f_equal. f_equal. lia.
  - apply letters_chr_nodup; lia.
  - rewrite letters_len. unfold order. rewrite full_lens by auto. auto.
  - apply tabulate_wf.
  - rewrite full_lens by auto. auto.
  - rewrite full_lens by auto. auto.
Qed.
Lemma copy_core_ok (prev core : tensor N) : wf core -> order core = o -> lens prev = lens core ->
  copy_core prev core (lbuf o) = Ok core.
Proof.
  intros HC OC HL. unfold copy_core. assert (order prev = o) as -> by (unfold order in *; rewrite HL; auto).
  rewrite OC, lbuf_take. cbn [bind]. apply (assign_same RL); auto; [apply letters_chr_nodup; lia|rewrite letters_len; auto].
Qed.
Lemma sweep_tucker W (Hs : svd_trunc_shaped (svd LA)) : ranks_ok (lens V) ranks -> tucker_ok V W ranks -> tucker_ok V (hooi_sweep (svd LA) V ranks W) ranks.
Proof.
  intros HR HW. assert (H18 : (2 <= order V <= 18)%nat) by (fold o; lia). apply (uptow_ok V ranks H18 (hooi_factor (svd LA) V ranks)); auto.
  intros W1 i _ Hi. apply hooi_factor_mat; auto.
Qed.

Lemma iter_tucker W k (Hs : svd_trunc_shaped (svd LA)) : ranks_ok (lens V) ranks -> tucker_ok V W ranks ->
  tucker_ok V (Nat.iter k (hooi_sweep (svd LA) V ranks) W) ranks.
Proof. intros HR HW. induction k; auto. cbn [Nat.iter nat_rect]. apply sweep_tucker; auto. Qed.

(** what alsTucker_DT writes: one row per check *)
Definition tk_row (t0 : nat) (chk : nat -> bool) (core0 : tensor N) (Wf : nat -> list (tensor N)) (tol : N) (bench : bool) (j i : nat) : row (N:=N) :=
  if bench then RowDT (reported_time clk t0 j)
  else Row (nth 0 (lens V) 0%nat) (Z.of_nat i) (core_change chk core0 (fun k => tucker_core V (Wf k)) i) tol 0
           (tucker_resid V (Wf i)) (reported_time clk t0 j).
Definition tk_rows (t0 : nat) (chk : nat -> bool) (core0 : tensor N) (Wf : nat -> list (tensor N)) (tol : N) (bench : bool) (n : nat) : list (row (N:=N)) :=
  map (fun j => tk_row t0 chk core0 Wf tol bench j (nth j (checked_below chk n) 0%nat)) (seq 0 (length (checked_below chk n))).
Lemma tk_rows_S t0 chk core0 Wf tol bench n : tk_rows t0 chk core0 Wf tol bench (S n) =
  tk_rows t0 chk core0 Wf tol bench n ++ (if chk n then [tk_row t0 chk core0 Wf tol bench (length (checked_below chk n)) n] else []).
Proof.
  unfold tk_rows. rewrite checked_below_S. destruct (chk n); [|rewrite !app_nil_r; auto].
  rewrite app_length. cbn [length]. rewrite Nat.add_1_r, seq_S, map_app. cbn [map Nat.add]. f_equal.
  - apply map_ext_in. intros j Hj. apply in_seq in Hj. rewrite app_nth1 by lia. auto.
  - rewrite nth_middle. auto.
Qed.

Lemma tk_checks_ok maxiter resprint k : resprint <> 0%Z -> tk_checks (Z.of_nat k) maxiter resprint = Ok (tk_checked maxiter resprint k).
Proof.
  intros H. unfold tk_checks, zmod. destruct (Z.eqb_spec resprint 0); [contradiction|]. cbn [bind]. f_equal. unfold tk_checked.
  replace (Z.eqb (Z.of_nat k) 0) with (Nat.eqb k 0). 2:{ destruct k; auto. }
  replace (Z.eqb (Z.of_nat k) 1) with (Nat.eqb k 1). 2:{ destruct k as [|[|k]]; auto. symmetry. apply Z.eqb_neq. lia. }
  auto.
Qed.

Theorem alsTucker_DT_run (core : tensor N) W tol limit maxiter resprint bench fuel x :
  sqrt_nonneg (N:=N) -> svd_trunc_shaped (svd LA) -> ranks_ok (lens V) ranks -> tucker_ok V W ranks -> lens core = ranks -> 
  (o = 2 \/ o = 4 \/ 6 <= o)%nat -> (o < fuel)%nat -> (0 <= maxiter)%Z -> resprint <> 0%Z ->
  let Wf k := Nat.iter k (hooi_sweep (svd LA) V ranks) W in
  let chk := tk_checked maxiter resprint in
  let change := core_change chk core (fun k => tucker_core V (Wf k)) in
  exists k (stopped : bool) st,
    alsTucker_DT LA clk rank0 fuel V core W tol limit maxiter resprint bench x = Ok (stopped, st) /\
    tk_run_spec (out_of_time clk (ck x) limit) chk change tol maxiter k stopped /\
    kW st = Wf k /\ kcore st = tucker_core V (Wf k) /\ (stopped = true -> kdn st = change k) /\
    rows (kio st) = rows x ++ (if rank0 then tk_rows (ck x) chk core Wf tol bench (k + if stopped then 1 else 0)%nat else []).
Proof.
  intros Hsq Hs HR HW LC Hgood Hf Hmax Hres Wf chk change.
  assert (H18 : (2 <= order V <= 18)%nat) by (fold o; lia).
  assert (HWf : forall k, tucker_ok V (Wf k) ranks) by (intros; apply iter_tucker; auto).
  pose proof HR as [LR _]. fold (order V) in LR. fold o in LR.
  unfold alsTucker_DT. fold o. unfold wtime. rewrite mk_seqV_ok. cbn [bind].
  destruct (tree_build o fuel) as (parent & sibling & Et & Htree); [lia|lia|]. rewrite Et. cbn [bind].
  rewrite (mk_Yend_ok V ranks) by auto. cbn [bind]. fold o. rewrite (ncols_ranks V ranks) by auto. cbn [bind].
  set (x0 := set_st _ _). set (t0 := ck x).
  set (body := Tucker_DT_iter _ _ _ _ _ _ _ _ _ _ _ _ _).
  set (rw := fun n => rows x ++ (if rank0 then tk_rows t0 chk core Wf tol bench n else [])).
  set (Pr := fun k s => kW (lk s) = Wf k /\ lens (kcore (lk s)) = ranks /\ (k <> 0%nat -> kcore (lk s) = tucker_core V (Wf k)) /\
     kprev (lk s) = last_checked chk core (fun k => tucker_core V (Wf k)) k /\ lens (kprev (lk s)) = ranks /\
     lens (lyend s) = ttmc_lens V W (others (o - 1) o) /\ llens s = ranks /\ lseqY s = lbuf o /\
     ck (kio (lk s)) = (t0 + 1 + 4 * length (checked_below chk k))%nat /\
     st_time (kio (lk s)) = corrected_start clk t0 (length (checked_below chk k)) /\ rows (kio (lk s)) = rw k).
  set (Qr := fun k s => kW (lk s) = Wf k /\ kcore (lk s) = tucker_core V (Wf k) /\ kdn (lk s) = change k /\ rows (kio (lk s)) = rw (S k)).
  match goal with |- context [for_iter _ _ body ?s0] =>
    destruct (for_iter_tk (out_of_time clk t0 limit) chk change tol maxiter Pr Qr body s0) as (k & stopped & s & E & Hrun & Hst) end.
  - auto.
  - unfold Pr. cbn [lk lyend llens lseqY kW kcore kprev kio].
    split; [auto|]. split; [auto|]. split; [intros []; auto|]. split; [auto|]. split; [auto|]. split; [auto|]. split; [auto|]. split; [auto|].
    unfold x0, set_st. cbn. split; [unfold t0; lia|]. split; [auto|]. unfold rw, tk_rows. cbn. destruct rank0; rewrite app_nil_r; auto.
  - intros k s Hk (HW1 & HC1 & _ & HP1 & HP2 & HY1 & HL1 & HS1 & Hck & Hst & Hrw).
    unfold body, Tucker_DT_iter. rewrite tk_checks_ok by auto. cbn [bind]. fold chk.
    set (j := length (checked_below chk k)) in *.
    assert (HYk : lens (lyend s) = ttmc_lens V (Wf k) (others (o - 1) o)).
    { rewrite HY1. rewrite <- !(Y_lens V ranks H18) by (auto; fold o; lia). auto. }
    assert (Hnext : forall k1, kW k1 = Wf k -> lens (kcore k1) = ranks -> kprev k1 = last_checked chk core (fun k => tucker_core V (Wf k)) (S k) ->
       lens (kprev k1) = ranks -> ck (kio k1) = (t0 + 1 + 4 * length (checked_below chk (S k)))%nat ->
       st_time (kio k1) = corrected_start clk t0 (length (checked_below chk (S k))) -> rows (kio k1) = rw (S k) ->
       exists s', ('(core0, (W0, Y_end, lens_Y, seq_Y)) <-
         Tucker_DT_sweep LA fuel parent sibling V (kcore k1) (lbuf o) (kW k1, lyend s, llens s, lseqY s) ;;
         Ok (Go, mkTL (mkTk W0 core0 (kprev k1) (kdW k1) (kdn k1) (kio k1)) Y_end lens_Y seq_Y)) = Ok (Go, s') /\ Pr (S k) s').
    { intros k1 E1 E2 E3 E4 E5 E6 E7. rewrite E1, HL1, HS1.
      destruct (DT_sweep_ok RL LA Hsq Hs V ranks H18 HR fuel parent sibling Hf Htree Hgood (kcore k1) (Wf k) (lyend s)) as (Y' & E' & HY'); auto.
      fold o in E'. rewrite E'. cbn [bind]. eexists. split; [reflexivity|]. unfold Pr. cbn [lk lyend llens lseqY kW kcore kprev kio].
      split; [reflexivity|]. split; [apply core_lens; exact (HWf (S k))|]. split; [reflexivity|]. split; [exact E3|]. split; [exact E4|].
      split; [rewrite HY'; exact HY1|]. auto. }
    unfold tk_stops. fold j. destruct (chk k) eqn:Ec.
    + cbn [andb]. unfold Tucker_DT_check. rewrite HW1, HP1.
      rewrite (tk_measure_ok _ _ (Wf k) (kio (lk s)) t0 j) by auto. cbn [bind].
      fold (core_change chk core (fun k => tucker_core V (Wf k)) k). fold change. fold (change k).
      set (r := tk_row t0 chk core Wf tol bench j k).
      assert (Hr : forall x', (if bench then emit rank0 x' (RowDT (reported_time clk t0 j))
           else emit rank0 x' (Row (nth 0 (lens V) 0%nat) (Z.of_nat k) (change k) tol 0%nat (tucker_resid V (Wf k)) (reported_time clk t0 j)))
          = emit rank0 x' r).
      { intros x'. unfold r, tk_row. destruct bench; auto. }
      rewrite Hr. clear Hr.
      assert (Hio : emit rank0 (mkIo (t0 + 4 * j + 4) (corrected_start clk t0 (j + 1)) (rows (kio (lk s)))) r
        = mkIo (t0 + 4 * j + 4) (corrected_start clk t0 (j + 1)) (rw (S k))).
      { rewrite Hrw. unfold emit, rw. rewrite tk_rows_S, Ec. fold j. fold r. destruct rank0; auto.
        cbn [ck st_time rows]. rewrite app_assoc. auto. }
      rewrite Hio. clear Hio. unfold tk_stop. rewrite stop_late.
      destruct (nltb (change k) tol || out_of_time clk t0 limit j) eqn:Estop.
      * cbn [bind]. eexists. split; [reflexivity|]. unfold Qr. cbn [lk kW kcore kdn kio rows]. auto.
      * rewrite copy_core_ok; [|apply tabulate_wf|apply core_order; auto|].
        2:{ rewrite core_lens by auto. rewrite <- HP1. auto. }
        cbn [bind]. apply orb_false_iff in Estop as [En _]. rewrite En.
        assert (HJ : length (checked_below chk (S k)) = S j) by (rewrite checked_below_S, Ec, app_length; cbn; fold j; lia).
        apply Hnext; cbn [kW kcore kprev kio ck st_time rows]; auto.
        -- apply core_lens; auto.
        -- cbn [last_checked]. rewrite Ec. auto.
        -- apply core_lens; auto.
        -- rewrite HJ. lia.
        -- rewrite HJ, Nat.add_1_r. auto.
    + cbn [andb bind]. assert (HJ : checked_below chk (S k) = checked_below chk k) by (rewrite checked_below_S, Ec, app_nil_r; auto).
      apply Hnext; auto.
      * cbn [last_checked]. rewrite Ec. auto.
      * rewrite HJ. auto.
      * rewrite HJ. auto.
      * rewrite Hrw. unfold rw. rewrite tk_rows_S, Ec, app_nil_r. auto.
  - rewrite E. cbn [bind]. rewrite (tk_ret _ _ _ _ _ _ _ Hrun). exists k, stopped, (lk s). split; [reflexivity|]. split; [exact Hrun|].
    destruct stopped.
    + destruct Hst as (H1 & H2 & H3 & H4). rewrite Nat.add_1_r. auto.
    + destruct Hst as (H1 & _ & H2 & _ & _ & _ & _ & _ & _ & _ & H4). rewrite Nat.add_0_r. split; auto. split; [|split; [discriminate|auto]].
      apply H2. intros ->. destruct Hrun as [_ Hrun]. cbn in Hrun. lia.
Qed.

(** the clock of alsTucker: one reading at the start, one per check that is not ended by the tolerance *)
Definition plain_late (t0 : nat) (limit : N) (j : nat) : bool := nltb limit (clk (t0 + 1 + j)%nat - clk t0).
Theorem alsTucker_run (core : tensor N) W tol limit maxiter x :
  sqrt_nonneg (N:=N) -> svd_trunc_shaped (svd LA) -> ranks_ok (lens V) ranks -> tucker_ok V W ranks -> lens core = ranks -> 
  (0 <= maxiter)%Z ->
  let Wf k := Nat.iter k (hooi_sweep (svd LA) V ranks) W in
  let chk := plain_checked maxiter in
  let change := core_change chk core (fun k => tucker_core V (Wf k)) in
  exists k (stopped : bool) st,
    alsTucker LA clk V core W tol limit maxiter x = Ok (stopped, st) /\
    tk_run_spec (plain_late (ck x) limit) chk change tol maxiter k stopped /\
    kW st = Wf k /\ kcore st = tucker_core V (Wf (if stopped then k else k - 1)%nat) /\ (stopped = true -> kdn st = change k).
Proof.
  intros Hsq Hs HR HW LC Hmax Wf chk change.
  assert (H18 : (2 <= order V <= 18)%nat) by (fold o; lia).
  assert (HWf : forall k, tucker_ok V (Wf k) ranks) by (intros; apply iter_tucker; auto).
  unfold alsTucker. fold o. unfold wtime. rewrite mk_seqV_ok. cbn [bind].
  set (x0 := set_st _ _). set (t0 := ck x).
  set (body := alsTucker_iter _ _ _ _ _ _ _).
  set (Pr := fun k s => kW s = Wf k /\ lens (kcore s) = ranks /\ (Z.of_nat k = maxiter + 1 -> kcore s = tucker_core V (Wf (k - 1)%nat))%Z /\
     kprev s = last_checked chk core (fun k => tucker_core V (Wf k)) k /\ lens (kprev s) = ranks /\
     ck (kio s) = (t0 + 1 + length (checked_below chk k))%nat /\ st_time (kio s) = clk t0).
  set (Qr := fun k s => kW s = Wf k /\ kcore s = tucker_core V (Wf k) /\ kdn s = change k).
  match goal with |- context [for_iter _ _ body ?s0] =>
    destruct (for_iter_tk (plain_late t0 limit) chk change tol maxiter Pr Qr body s0) as (k & stopped & s & E & Hrun & Hst) end.
  - auto.
  - unfold Pr. cbn [kW kcore kprev kio]. split; [auto|]. split; [auto|]. split; [cbn; lia|]. split; [auto|]. split; [auto|].
    unfold x0, set_st. cbn. split; [unfold t0; lia|auto].
  - intros k s Hk (HW1 & HC1 & _ & HP1 & HP2 & Hck & Hst). unfold body, alsTucker_iter.
    replace ((Z.rem (Z.of_nat k) 100 =? 0)%Z && negb (Z.of_nat k =? 0)%Z || (Z.of_nat k =? maxiter)%Z) with (chk k).
    2:{ unfold chk, plain_checked. replace (Z.eqb (Z.of_nat k) 0) with (Nat.eqb k 0) by (destruct k; auto). auto. }
    set (j := length (checked_below chk k)) in *.
    assert (Hnext : forall k1, kW k1 = Wf k -> lens (kcore k1) = ranks -> (Z.of_nat k = maxiter -> kcore k1 = tucker_core V (Wf k)) ->
       kprev k1 = last_checked chk core (fun k => tucker_core V (Wf k)) (S k) ->
       lens (kprev k1) = ranks -> ck (kio k1) = (t0 + 1 + length (checked_below chk (S k)))%nat -> st_time (kio k1) = clk t0 ->
       exists s', (W0 <- for_ 0 (order V) (alsTucker_mode LA V (kcore k1)) (kW k1) ;;
         Ok (Go, mkTk W0 (kcore k1) (kprev k1) (kdW k1) (kdn k1) (kio k1))) = Ok (Go, s') /\ Pr (S k) s').
    { intros k1 E1 E2 E3 E4 E5 E6 E7. rewrite E1. rewrite (plain_sweep_ok RL LA Hsq Hs V ranks H18 HR (kcore k1)) by (auto; fold o; lia).
      cbn [bind]. eexists. split; [reflexivity|]. unfold Pr. cbn [kW kcore kprev kio].
      split; [reflexivity|]. split; [auto|]. split; [intros H; cbn [Nat.sub]; rewrite Nat.sub_0_r; apply E3; lia|]. auto. }
    unfold tk_stops. fold j. destruct (chk k) eqn:Ec.
    + cbn [andb]. unfold alsTucker_check. rewrite HW1, HP1. rewrite core_TTMc by auto. cbn [bind].
      fold (core_change chk core (fun k => tucker_core V (Wf k)) k). fold change. fold (change k).
      unfold tk_stop, stop_test, wtime. rewrite Hck.
      destruct (nltb (change k) tol) eqn:En.
      { cbn [orb bind]. eexists. split; [reflexivity|]. unfold Qr. cbn [kW kcore kdn]. auto. }
      cbn [orb]. cbn [st_time]. rewrite Hst. fold (plain_late t0 limit j). destruct (plain_late t0 limit j) eqn:El.
      * cbn [bind]. eexists. split; [reflexivity|]. unfold Qr. cbn [kW kcore kdn]. auto.
      * rewrite copy_core_ok; [|apply tabulate_wf|apply core_order; auto|].
        2:{ rewrite core_lens by auto. rewrite <- HP1. auto. }
        cbn [bind].
        assert (HJ : length (checked_below chk (S k)) = S j) by (rewrite checked_below_S, Ec, app_length; cbn; fold j; lia).
        apply Hnext; cbn [kW kcore kprev kio ck st_time]; auto.
        -- apply core_lens; auto.
        -- cbn [last_checked]. rewrite Ec. auto.
        -- apply core_lens; auto.
        -- rewrite HJ. lia.
    + cbn [andb bind]. assert (HJ : checked_below chk (S k) = checked_below chk k) by (rewrite checked_below_S, Ec, app_nil_r; auto).
      apply Hnext; auto.
      * intros Hm. exfalso. unfold chk, plain_checked in Ec. rewrite Hm, Z.eqb_refl, orb_true_r in Ec. discriminate.
      * cbn [last_checked]. rewrite Ec. auto.
      * rewrite HJ. auto.
  - rewrite E. cbn [bind]. rewrite (tk_ret _ _ _ _ _ _ _ Hrun). exists k, stopped, s. split; [reflexivity|]. split; [exact Hrun|].
    destruct stopped.
    + destruct Hst as (H1 & H2 & H3). auto.
    + destruct Hst as (H1 & _ & H2 & _). split; auto. split; [|discriminate]. apply H2. destruct Hrun as [_ Hrun]. auto.
Qed.
End V.
End P.
