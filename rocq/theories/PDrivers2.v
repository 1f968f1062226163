(** alsCP_DT and alsCP: the complete run, with its checks, clock readings and output *)
From Coq Require Import List ZArith QArith Qround Lia Bool Arith Permutation Ring.
From Verif Require Import Base Num Tensor Spec Spec4 MCommon MCP PBase PTensor PSum PMttkrp PMat PKhatri PGrad PMatAlg PSolve
  PBuildV PNormalize PTree PDT PDTSweep PALS PDrivers PCPD.
Import ListNotations.
Local Close Scope Q_scope.

Lemma floor_1 k : Qfloor (sweeps_after 1 k) = Z.of_nat k.
Proof.
  assert (E : (sweeps_after 1 k == inject_Z (Z.of_nat k))%Q) by (rewrite (sweeps_after_eq 1 8192) by reflexivity; ring).
  rewrite E. apply Qfloor_Z.
Qed.
Lemma checked_1 ms rp k : (Z.of_nat k <= ms)%Z -> checked_at 1 ms rp k = (Z.rem (Z.of_nat k) rp =? 0)%Z || (Z.of_nat k =? ms)%Z.
Proof.
  intros H. unfold checked_at. f_equal.
  assert (E : (sweeps_after 1 k == inject_Z (Z.of_nat k))%Q) by (rewrite (sweeps_after_eq 1 8192) by reflexivity; ring).
  rewrite E. apply eq_true_iff_eq. rewrite Qle_bool_iff, Z.eqb_eq. unfold Qle, inject_Z. cbn. lia.
Qed.
Lemma length_checks_S q ms rp k : length (checks q ms rp (S k)) = length (checks q ms rp k) + (if checked_at q ms rp k then 1 else 0).
Proof. rewrite checks_S, app_length. destruct (checked_at _ _ _ _); reflexivity. Qed.

Lemma for_iter_spec {N : num} {St} (late : nat -> bool) (gn : nat -> N) tol maxiter rp (I E : nat -> St -> Prop) body s :
  (0 <= maxiter)%Z -> I 0 s ->
  (forall k s, (Z.of_nat k <= maxiter)%Z -> I k s ->
     if stops_at late gn tol maxiter rp 1 k then exists s', body (Z.of_nat k) s = Ok (Break, s') /\ E k s'
     else exists s', body (Z.of_nat k) s = Ok (Go, s') /\ I (S k) s') ->
  exists k (stopped : bool) s', for_iter (rounds 0 maxiter) 0 body s = Ok (if stopped then Break else Go, Z.of_nat k, s') /\
    run_spec late gn tol maxiter rp 1 k stopped /\ (if stopped then E k s' else I k s').
Proof.
  intros Hmax H0 Hb.
  destruct (for_iter_run (fun k s => I k s /\ forall i, i < k -> stops_at late gn tol maxiter rp 1 i = false)
    (fun f k s => f = Break /\ E k s /\ stops_at late gn tol maxiter rp 1 k = true /\ forall i, i < k -> stops_at late gn tol maxiter rp 1 i = false)
    body (rounds 0 maxiter) 0 0%Z s) as (f & k & s' & Ef & Hf).
  - split; [exact H0|]. intros; lia.
  - intros k s1 Hk [HI Hs]. unfold rounds in Hk. specialize (Hb k s1 ltac:(lia) HI). rewrite Z.add_0_l, Nat.sub_0_r.
    destruct (stops_at late gn tol maxiter rp 1 k) eqn:Es; destruct Hb as (s2 & E1 & E2).
    + exists Break, s2. auto.
    + exists Go, s2. split; [exact E1|]. split; [exact E2|]. intros i Hi. destruct (Nat.eq_dec i k) as [->|]; [auto|apply Hs; lia].
  - rewrite Z.add_0_l, Nat.sub_0_r in Ef. unfold rounds in Hf. destruct f.
    + destruct Hf as [Hk [HI Hs]]. exists k, false, s'. split; [exact Ef|]. split; [|exact HI]. unfold run_spec. rewrite floor_1. split; [|lia].
      intros i Hi. rewrite floor_1. split; [lia|apply Hs; auto].
    + destruct Hf as [Hk (_ & HE & Hs1 & Hs)]. exists k, true, s'. split; [exact Ef|]. split; [|exact HE]. unfold run_spec. rewrite floor_1.
      split; [|split; [lia|auto]]. intros i Hi. rewrite floor_1. split; [lia|apply Hs; auto].
    + destruct Hf as [_ [Hf _]]. discriminate.
Qed.
Lemma run_ret {N : num} (late : nat -> bool) (gn : nat -> N) tol maxiter rp k stopped : run_spec late gn tol maxiter rp 1 k stopped ->
  (0 <= maxiter)%Z -> negb (Z.of_nat k =? maxiter + 1)%Z = stopped /\ (if stopped then (Z.of_nat k <= maxiter)%Z else Z.of_nat k = (maxiter + 1)%Z).
Proof.
  intros [H1 H2] Hm. destruct stopped.
  - destruct H2 as [H2 _]. rewrite floor_1 in H2. destruct (Z.eqb_spec (Z.of_nat k) (maxiter + 1)); [lia|auto].
  - rewrite floor_1 in H2. destruct k as [|k]; [cbn in H2; lia|]. destruct (H1 k ltac:(lia)) as [H3 _]. rewrite floor_1 in H3.
    destruct (Z.eqb_spec (Z.of_nat (S k)) (maxiter + 1)); [auto|lia].
Qed.

(** what alsCP_DT writes: one row per check (bench: not for the first) *)
Definition dt_rows {N : num} (clk : nat -> N) (t0 : nat) (V : tensor N) (R : nat) (tol : N) (bench : bool)
  (Wf Gf : nat -> list (tensor N)) (cs : list nat) : list (row (N := N)) :=
  if bench then map (fun j => RowDT (reported_time clk t0 j)) (seq 1 (length cs - 1))
  else map (fun j => let i := nth j cs 0 in
         Row (nth 0 (lens V) 0) (Z.of_nat i) (grad_norm (Gf i)) tol 0 (resid_norm V (Wf i) R) (reported_time clk t0 j)) (seq 0 (length cs)).

Section P.
Context {N : num} (RL : ring_laws N) (LA : lapack N).
Let RT : ring_theory (@n0 N) n1 nadd nmul nsub nopp (@eq N) := RL.
Add Ring NringD2 : RT.
Local Open Scope num_scope.
Context (clk : nat -> N) (rank0 : bool).
Lemma measure_time (V : tensor N) W G R x t0 j : (2 <= order V <= 19)%nat -> factors_ok V W R -> length G = order V ->
  ck x = (t0 + 1 + 4 * j)%nat -> st_time x = corrected_start clk t0 j ->
  measure clk V W G (lbuf (order V)) x = Ok (grad_norm G, resid_norm V W R, reported_time clk t0 j,
    mkIo (t0 + 4 * j + 4) (corrected_start clk t0 (j + 1)) (rows x)).
Proof.
  intros Ho HW HG Hck Hst. unfold measure, check_begin, wtime. rewrite (sumnorm_ok RL clk) by auto. cbn [bind].
  rewrite (diffnorm_ok RL clk V W R) by auto. cbn [bind]. unfold check_end, wtime. cbn [ck st_time rows set_st]. rewrite Hck, Hst.
  replace (corrected_start clk t0 j + (clk (S (t0 + 1 + 4 * j)) - clk (t0 + 1 + 4 * j))) with (corrected_start clk t0 (j + 1)%nat).
  2:{ replace (j + 1)%nat with (S j) by lia. cbn [corrected_start]. replace (t0 + 4 * j + 2)%nat with (S (t0 + 1 + 4 * j)) by lia.
      replace (t0 + 4 * j + 1)%nat with (t0 + 1 + 4 * j)%nat by lia. reflexivity. }
  unfold reported_time. replace (t0 + 4 * j + 3)%nat with (S (S (t0 + 1 + 4 * j))) by lia. do 2 f_equal. f_equal. lia.
Qed.
Lemma stop_late gn tol limit t0 j rs : stop_test clk gn tol limit (mkIo (t0 + 4 * j + 4) (corrected_start clk t0 (j + 1)) rs)
  = (nltb gn tol || out_of_time clk t0 limit j, mkIo (if nltb gn tol then t0 + 4 * j + 4 else t0 + 4 * j + 5) (corrected_start clk t0 (j + 1)) rs).
Proof.
  unfold stop_test, wtime, out_of_time. cbn [ck st_time rows]. destruct (nltb gn tol); [reflexivity|]. cbn [orb]. do 2 f_equal. lia.
Qed.
Lemma dt_rows_S (V : tensor N) R tol bench Wf Gf t0 ms rp k : checked_at 1 ms rp k = true ->
  dt_rows clk t0 V R tol bench Wf Gf (checks 1 ms rp (S k)) = dt_rows clk t0 V R tol bench Wf Gf (checks 1 ms rp k) ++
    (let t := reported_time clk t0 (length (checks 1 ms rp k)) in
     if bench then (if Z.eqb (Z.of_nat k) 0 then [] else [RowDT t])
     else [Row (nth 0 (lens V) 0%nat) (Z.of_nat k) (grad_norm (Gf k)) tol 0%nat (resid_norm V (Wf k) R) t]).
Proof.
  intros Hc. assert (Hlen := length_checks_S 1 ms rp k). rewrite Hc in Hlen. set (cs := checks 1 ms rp) in *. cbv zeta.
  unfold dt_rows. destruct bench.
  - rewrite Hlen. destruct k as [|k]; [reflexivity|].
    assert (HL : (1 <= length (cs (S k)))%nat).
    { unfold cs, checks. cbn [seq filter]. rewrite checked_at_0. cbn. lia. }
    replace (length (cs (S k)) + 1 - 1)%nat with (S (length (cs (S k)) - 1)) by lia. rewrite seq_S, map_app. cbn [map].
    replace (Z.of_nat (S k) =? 0)%Z with false by (symmetry; apply Z.eqb_neq; lia).
    do 3 f_equal. f_equal. clear -HL. lia.
  - rewrite Hlen. replace (length (cs k) + 1)%nat with (S (length (cs k))) by lia. rewrite seq_S, map_app. cbn [map Nat.add].
    assert (Hcs : cs (S k) = cs k ++ [k]) by (unfold cs; rewrite checks_S, Hc; reflexivity). f_equal.
    + apply map_ext_in. intros j Hj. apply in_seq in Hj. rewrite Hcs, app_nth1 by lia. reflexivity.
    + rewrite Hcs, nth_middle. reflexivity.
Qed.
Theorem alsCP_DT_full (V : tensor N) (R : nat) W G F tol limit maxiter lambda resprint bench fuel x :
  (order V = 4 \/ 6 <= order V <= 19)%nat -> (order V < fuel)%nat ->
  svd_shaped (svd LA) -> factors_ok V W R -> mats_ok V F R -> mats_ok V G R ->
  (0 <= maxiter)%Z -> resprint <> 0%Z ->
  let solve := pinv_solve (svd LA) R in
  let Wf k := Nat.iter k (fun W => rescaled (als_sweep solve lambda V F R W)) W in
  let Gf k := match k with O => G | S k' => als_grads solve lambda V F R (Wf k') end in
  exists k (stopped : bool) st,
    alsCP_DT LA clk rank0 fuel V W G F tol limit maxiter lambda resprint bench x = Ok (stopped, st) /\
    als_run clk (ck x) tol limit maxiter resprint 1 Gf k stopped /\
    dtW st = Wf k /\ dtG st = Gf k /\ (stopped = true -> dtpn st = grad_norm (Gf k)) /\
    rows (dtio st) = rows x ++ (if rank0 then dt_rows clk (ck x) V R tol bench Wf Gf (checks 1 maxiter resprint (k + if stopped then 1 else 0)%nat) else []).
Proof.
  intros Ho Hf Hsh HW HF HG Hmax Hres solve Wf Gf. set (o := order V) in *.
  assert (Ho31 : (1 <= o <= 31)%nat) by lia. assert (Hgood : (o = 4 \/ 6 <= o)%nat) by lia.
  unfold alsCP_DT. fold o. rewrite (W_lget LA V R W 0) by (auto; fold o; lia). cbn [bind].
  destruct (W_dims V R W 0 HW ltac:(fold o; lia)) as [_ Hc]. rewrite Hc.
  rewrite (mk_regul_ok RL). cbn [bind]. unfold wtime. rewrite mk_seqV_ok. cbn [bind].
  destruct (tree_build o fuel) as (parent & sibling & Et & Htree); [lia|lia|]. rewrite Et. cbn [bind].
  set (x0 := set_st _ _). set (t0 := ck x).
  set (body := alsCP_DT_iter _ _ _ _ _ _ _ _ _ _ _ _ _ _).
  set (cs := checks 1 maxiter resprint).
  set (rw := fun n => rows x ++ (if rank0 then dt_rows clk t0 V R tol bench Wf Gf (cs n) else [])).
  set (Pr := fun k st => dtG st = Gf k /\ dtW st = Wf k /\ factors_ok V (dtW st) R /\ mats_ok V (dtG st) R /\
                         lens (dtS st) = [R; R] /\ dtseq st = lbuf o /\
                         ck (dtio st) = (t0 + 1 + 4 * length (cs k))%nat /\ st_time (dtio st) = corrected_start clk t0 (length (cs k)) /\ rows (dtio st) = rw k).
  set (Qr := fun (k : nat) st => dtG st = Gf k /\ dtW st = Wf k /\ dtpn st = grad_norm (Gf k) /\ rows (dtio st) = rw (S k)).
  destruct (for_iter_spec (out_of_time clk t0 limit) (fun i => grad_norm (Gf i)) tol maxiter resprint Pr Qr body (mkDt W G (zeros [R; R]) (lbuf o) n0 x0))
    as (k & stopped & st & E & Hrun & Hst); [auto| | |].
  - unfold Pr. cbn [dtG dtW dtS dtseq dtio]. split; [auto|]. split; [auto|]. split; [auto|]. split; [auto|]. split; [auto|]. split; [auto|].
    unfold cs, checks. cbn [seq filter length]. split; [cbn; lia|]. split; [reflexivity|]. unfold rw, cs, checks, dt_rows. cbn. destruct rank0, bench; cbn; rewrite app_nil_r; reflexivity.
  - intros k st Hk (HG1 & HW1 & HW2 & HG2 & HS2 & Hsq & Hck & Hst & Hrw). subst body. unfold alsCP_DT_iter, zmod.
    destruct (Z.eqb_spec resprint 0); [contradiction|]. cbn [bind]. rewrite <- checked_1 by auto.
    set (j := length (cs k)) in *.
    assert (Hnext : forall st1, dtW st1 = dtW st -> dtG st1 = dtG st -> dtS st1 = dtS st -> dtseq st1 = dtseq st ->
       ck (dtio st1) = (t0 + 1 + 4 * length (cs (S k)))%nat -> st_time (dtio st1) = corrected_start clk t0 (length (cs (S k))) -> rows (dtio st1) = rw (S k) ->
       exists s', ('(W0, G0, Sm, sq) <- alsCP_DT_sweep LA fuel parent sibling V F (mscal lambda (mid R)) (dtW st1) (dtG st1) (dtS st1) (dtseq st1) ;;
         Ok (Go, mkDt W0 G0 Sm sq (dtpn st1) (dtio st1))) = Ok (Go, s') /\ Pr (S k) s').
    { intros st1 E1 E2 E3 E4 H1 H2 H3. rewrite E1, E2, E3, E4, Hsq.
      destruct (alsCP_DT_sweep_ok RL LA V R Hsh parent sibling fuel Htree Hgood Ho31 Hf F (dtG st) (dtW st) (dtS st) lambda) as (Sm' & Es & HS'); auto.
      fold o in Es.
      rewrite Es. cbn [bind]. eexists. split; [reflexivity|]. unfold Pr. cbn [dtW dtG dtS dtseq dtio].
      assert (Hs := sweep_factors RL LA V R Hsh lambda F (dtW st) HW2).
      split; [|split; [|split; [|split; [|split; [|split; [|split; [|split]]]]]]]; auto.
      * rewrite HW1. reflexivity.
      * rewrite HW1. reflexivity.
      * destruct Hs as (Hs1 & Hs2 & Hs3). split; auto. unfold rescaled. split; [rewrite map_length; auto|].
        intros m Hm. unfold fac. rewrite (nth_map_lt _ _ _ tnil) by lia. apply mscal_mat, Hs3; auto.
      * unfold sweep_grads. split; [rewrite map_length, seq_length; auto|]. intros m Hm. fold o in Hm. unfold fac at 1.
        rewrite (nth_map_lt _ _ _ 0%nat) by (rewrite seq_length; auto). rewrite nth_seq by auto. cbn [Nat.add].
        apply msub_mat', (mmul_mat _ _ _ R R); [|apply lhs_mat]. apply (upto_factors RL LA V R Hsh lambda F (dtW st) m HW2); [fold o; lia|auto]. }
    assert (Hlen := length_checks_S 1 maxiter resprint k). fold cs in Hlen. fold j in Hlen.
    unfold stops_at. fold cs. fold j.
    destruct (checked_at 1 maxiter resprint k) eqn:Hch; cbn [andb].
    + unfold alsCP_DT_check. rewrite Hsq. unfold o. rewrite (measure_time V (dtW st) (dtG st) R (dtio st) t0 j); auto; [|fold o; lia|apply HG2].
      fold o. cbn [bind]. rewrite Hrw, HG1, HW1.
      set (x1 := if bench then _ else _).
      assert (Hx1 : x1 = mkIo (t0 + 4 * j + 4) (corrected_start clk t0 (j + 1)) (rw (S k))).
      { unfold x1, rw, cs. rewrite dt_rows_S by auto. fold cs. fold j. unfold emit. cbn [ck st_time rows].
        destruct bench, rank0; [destruct (Z.of_nat k =? 0)%Z| destruct (Z.of_nat k =? 0)%Z| |]; cbv zeta; rewrite ?app_nil_r, <- ?app_assoc, ?app_nil_r; reflexivity. }
      rewrite Hx1, stop_late. cbn [bind].
      destruct (nltb (grad_norm (Gf k)) tol || out_of_time clk t0 limit j) eqn:Es.
      * eexists. split; [reflexivity|]. unfold Qr. cbn [dtG dtW dtpn dtio rows]. auto.
      * rewrite <- HW1, <- HG1. apply orb_false_iff in Es as [Es1 Es2].
        apply (Hnext (mkDt (dtW st) (dtG st) (dtS st) (lbuf o) (grad_norm (dtG st)) (mkIo (if nltb (grad_norm (dtG st)) tol then t0 + 4 * j + 4 else t0 + 4 * j + 5)%nat (corrected_start clk t0 (j + 1)) (rw (S k))))); cbn [dtW dtG dtS dtseq dtio ck st_time rows]; auto.
        { rewrite HG1, Es1, Hlen. lia. }
    + cbn [bind]. rewrite Nat.add_0_r in Hlen.
      apply (Hnext st); auto.
      { rewrite Hlen; auto. } { rewrite Hlen; auto. } { rewrite Hrw. unfold rw, cs. rewrite checks_S, Hch, app_nil_r. reflexivity. }
  - rewrite E. cbn [bind]. destruct (run_ret _ _ _ _ _ _ _ Hrun Hmax) as [Hret _]. rewrite Hret. exists k, stopped, st.
    split; [reflexivity|]. split; [exact Hrun|]. destruct stopped.
    + destruct Hst as (H1 & H2 & H3 & H4). split; [auto|]. split; [auto|]. split; [auto|]. rewrite H4. unfold rw. replace (k + 1)%nat with (S k) by lia. reflexivity.
    + destruct Hst as (H1 & H2 & _ & _ & _ & _ & _ & _ & H4). split; [auto|]. split; [auto|]. split; [discriminate|]. rewrite H4. unfold rw. rewrite Nat.add_0_r. reflexivity.
Qed.
(** alsCP reads the clock once at the start and once per check that does not meet the tolerance *)
Definition simple_late (t0 : nat) (limit : N) (j : nat) : bool := nltb limit (clk (t0 + 1 + j)%nat - clk t0).
Definition proj_grads (V : tensor N) (F : list (tensor N)) (R : nat) (W : list (tensor N)) : list (tensor N) :=
  map (fun n => msub (grad_spec V W R n) (fac F n)) (seq 0 (order V)).
Lemma alsCP_check_ok (V : tensor N) (R s : nat) F tol limit st :
  (2 <= order V <= 10)%nat -> lens V = repeat s (order V) -> factors_ok V (aW st) R -> mats_ok V F R -> mats_ok V (aG st) R ->
  let Gn := map (fun n => grad_spec V (aW st) R n) (seq 0 (order V)) in
  let pn := grad_norm (proj_grads V F R (aW st)) in
  mats_ok V Gn R /\
  alsCP_check clk V F tol limit st = Ok (let '(stop, x) := stop_test clk pn tol limit (aio st) in
     (stop, mkAls (aW st) Gn (aS st) (aseq st) pn (bigsum F norm2) x)).
Proof.
  intros Ho Hcube HW2 HF HG2 Gn0 pn. set (o := order V) in *.
  unfold alsCP_check. fold o.
        assert (Hn : forall m, (m < o)%nat -> nth m (lens V) 0%nat = s) by (intros; rewrite Hcube; apply nth_rep; auto).
        rewrite (gradient_CP_ok RL V (aW st) (aG st) R s); auto.
        2:{ apply HG2. }
        2:{ intros m Hm. destruct HG2 as [_ H]. rewrite <- (Hn m Hm). apply H; auto. }
        cbn [bind]. set (Gn := map (fun n => grad_spec V (aW st) R n) (seq 0 (order V))).
        change (map _ (seq 0 (order V))) with Gn.
        assert (HGn : mats_ok V Gn R).
        { split; [unfold Gn; rewrite map_length, seq_length; auto|]. intros m Hm. unfold Gn, fac.
          rewrite (nth_map_lt _ _ _ 0%nat) by (rewrite seq_length; auto). rewrite nth_seq by auto. cbn [Nat.add].
          apply msub_mat', (mmul_mat _ _ _ R R); [apply HW2; auto|apply hgram_mat]. }
        destruct (for_inv (fun i acc => acc = map (fun n => msub (grad_spec V (aW st) R n) (fac F n)) (seq 0 i))
          (fun i acc => Wi <- lget (aW st) i ;; g <- lget Gn i ;; f <- lget F i ;;
             p <- assign false (zeros [nrow Wi; ncol Wi]) sij [mkTerm n1 [(g, sij)]; mkTerm (- n1) [(f, sij)]] ;;
             Ok (acc ++ [p])) 0%nat o []) as (proj & Ep & Hproj).
        { lia. } { reflexivity. }
        { intros i acc Hi ->. rewrite (W_lget LA V R (aW st) i) by (auto; fold o; lia). cbn [bind].
          rewrite (F_lget LA V R Gn i) by (auto; fold o; lia). cbn [bind]. rewrite (F_lget LA V R F i) by (auto; fold o; lia). cbn [bind].
          destruct (W_dims V R (aW st) i HW2 ltac:(fold o; lia)) as [Er Ec]. rewrite Er, Ec.
          assert (HGi : is_mat (fac Gn i) (nth i (lens V) 0%nat) R) by (apply HGn; fold o; lia).
          assert (HFi : is_mat (fac F i) (nth i (lens V) 0%nat) R) by (apply HF; fold o; lia).
          rewrite (assign_lin RL _ _ _ _ _ (nth i (lens V) 0%nat) R); [|reflexivity|apply HGi|apply HFi]. cbn [bind].
          eexists; split; [reflexivity|]. rewrite seq_S, map_app. f_equal. cbn [map Nat.add]. f_equal.
          replace (grad_spec V (aW st) R i) with (fac Gn i).
          2:{ unfold Gn, fac. rewrite (nth_map_lt _ _ _ 0%nat) by (rewrite seq_length; fold o; lia). rewrite nth_seq by (fold o; lia). auto. }
          symmetry. apply mat_mk; [apply msub_mat'; auto|]. intros a b Ha Hb. rewrite (el_msub _ _ (nth i (lens V) 0%nat) R) by auto. ring. }
        rewrite Ep. cbn [bind]. rewrite (sumnorm_ok RL clk) by (rewrite Hproj, map_length, seq_length; auto). cbn [bind].
        destruct (for_inv (fun i (p : N) => p = bigsum (firstn i F) norm2)
          (fun i a => f <- lget F i ;; Ok (a + norm2 f)) 0%nat o n0) as (fn & Ef & Hfn').
        { lia. } { reflexivity. }
        { intros i p Hi ->. destruct HF as [HFl _]. fold o in HFl. rewrite (lget_ok F i tnil) by lia. cbn [bind]. eexists; split; [reflexivity|].
          rewrite (firstn_snoc_nth _ _ tnil) by lia. rewrite (bigsum_app RL). cbn. ring. }
        rewrite Ef. cbn [bind]. rewrite firstn_all2 in Hfn' by (destruct HF as [-> _]; auto).
        split; [exact HGn|]. change (proj = proj_grads V F R (aW st)) in Hproj. subst pn. rewrite <- Hproj, <- Hfn'.
        destruct (stop_test clk (grad_norm proj) tol limit (aio st)) as [stop x2]. reflexivity.
Qed.
Theorem alsCP_full (V : tensor N) (R s : nat) W G F tol limit maxiter x :
  (2 <= order V <= 10)%nat -> lens V = repeat s (order V) ->
  svd_shaped (svd LA) -> factors_ok V W R -> mats_ok V F R -> mats_ok V G R -> (0 <= maxiter)%Z ->
  let Fnorm := bigsum F norm2 in
  let Wf k := Nat.iter k (fun W => let W' := als_sweep (pinv_solve (svd LA) R) n0 V F R W in
                       if neqb Fnorm n0 then rescaled W' else W') W in
  exists k (stopped : bool) st,
    alsCP LA clk V W G F tol limit maxiter x = Ok (stopped, st) /\
    run_spec (simple_late (ck x) limit) (fun i => grad_norm (proj_grads V F R (Wf i))) tol maxiter 100 1 k stopped /\
    aW st = Wf k /\
    (stopped = true -> aG st = map (fun n => grad_spec V (Wf k) R n) (seq 0 (order V)) /\ apn st = grad_norm (proj_grads V F R (Wf k))).
Proof.
  intros Ho Hcube Hsh HW HF HG Hmax Fnorm Wf. set (o := order V) in *.
  unfold alsCP. fold o. unfold wtime. rewrite mk_seqV_ok. cbn [bind].
  rewrite (W_lget LA V R W 0) by (auto; fold o; lia). cbn [bind].
  destruct (W_dims V R W 0 HW ltac:(fold o; lia)) as [_ Hc]. rewrite Hc.
  set (x0 := set_st _ _). set (t0 := ck x). set (cs := checks 1 maxiter 100).
  set (body := alsCP_iter _ _ _ _ _ _ _).
  set (Pr := fun k st => aW st = Wf k /\ factors_ok V (aW st) R /\ mats_ok V (aG st) R /\
                         lens (aS st) = [R; R] /\ aseq st = lbuf o /\ (k <> 0%nat -> afn st = Fnorm) /\
                         ck (aio st) = (t0 + 1 + length (cs k))%nat /\ st_time (aio st) = clk t0).
  set (Qr := fun (k : nat) st => aW st = Wf k /\ aG st = map (fun n => grad_spec V (Wf k) R n) (seq 0 o) /\
        apn st = grad_norm (proj_grads V F R (Wf k))).
  destruct (for_iter_spec (simple_late t0 limit) (fun i => grad_norm (proj_grads V F R (Wf i))) tol maxiter 100 Pr Qr body (mkAls W G (zeros [R; R]) (lbuf o) n0 n0 x0))
    as (k & stopped & st & E & Hrun & Hst); [auto| | |].
  - unfold Pr. cbn [aW aG aS aseq afn aio]. split; [auto|]. split; [auto|]. split; [auto|]. split; [auto|]. split; [auto|]. split; [intros []; auto|].
    unfold cs, checks. cbn. split; [lia|reflexivity].
  - intros k st Hk (HW1 & HW2 & HG2 & HS2 & Hsq & Hfn & Hck & Hst). subst body. unfold alsCP_iter.
    rewrite <- checked_1 by auto. set (j := length (cs k)) in *.
    assert (Hlen := length_checks_S 1 maxiter 100 k). fold cs in Hlen. fold j in Hlen.
    assert (Hnext : forall st1, aW st1 = aW st -> mats_ok V (aG st1) R -> aS st1 = aS st -> aseq st1 = aseq st -> afn st1 = Fnorm ->
       ck (aio st1) = (t0 + 1 + length (cs (S k)))%nat -> st_time (aio st1) = clk t0 ->
       exists s', ('(W, Sm, sq) <- alsCP_sweep LA V F (aW st1, aS st1, aseq st1) ;;
          W <- (if neqb (afn st1) n0 then Normalize W (order V) else Ok W) ;;
          Ok (Go, mkAls W (aG st1) Sm sq (apn st1) (afn st1) (aio st1))) = Ok (Go, s') /\ Pr (S k) s').
    { intros st1 E1 HG1 E3 E4 E5 H1 H2. rewrite E1, E3, E4, Hsq, E5. fold o.
      destruct (alsCP_sweep_ok RL LA V R Hsh F (aW st) (aS st) s) as (Sm' & E' & HS'); auto.
      fold o in E'. rewrite E'. cbn [bind].
      assert (Hs := sweep_factors RL LA V R Hsh n0 F (aW st) HW2).
      set (W2 := als_sweep _ _ _ _ _ _) in *.
      assert (EN : (if neqb Fnorm n0 then Normalize W2 o else Ok W2) = Ok (if neqb Fnorm n0 then rescaled W2 else W2)).
      { destruct (neqb Fnorm n0); auto. apply (Normalize_rescaled RL V R); auto. }
      rewrite EN. cbn [bind]. eexists. split; [reflexivity|]. unfold Pr. cbn [aW aG aS aseq afn aio].
      split; [|split; [|split; [|split; [|split; [|split; [|split]]]]]]; auto.
      * subst W2. rewrite HW1. reflexivity.
      * destruct (neqb Fnorm n0); auto.
        destruct Hs as (Hs1 & Hs2 & Hs3). split; auto. unfold rescaled. split; [rewrite map_length; auto|].
        intros m Hm. unfold fac. rewrite (nth_map_lt _ _ _ tnil) by lia. apply mscal_mat, Hs3; auto. }
    unfold stops_at. fold cs. fold j. destruct (checked_at 1 maxiter 100 k) eqn:Hch; cbn [andb].
    + destruct (alsCP_check_ok V R s F tol limit st Ho Hcube HW2 HF HG2) as [HGn Ec]. rewrite Ec. cbn [bind]. unfold stop_test, wtime. rewrite Hck, Hst, HW1.
      destruct (nltb (grad_norm (proj_grads V F R (Wf k))) tol) eqn:Et; cbn [orb].
      * eexists. split; [reflexivity|]. unfold Qr. cbn [aW aG apn]. auto.
      * cbn [st_time]. fold (simple_late t0 limit j). destruct (simple_late t0 limit j).
        -- eexists. split; [reflexivity|]. unfold Qr. cbn [aW aG apn]. auto.
        -- apply (Hnext (mkAls (Wf k) (map (fun n => grad_spec V (Wf k) R n) (seq 0 (order V))) (aS st) (aseq st)
              (grad_norm (proj_grads V F R (Wf k))) (bigsum F norm2) (mkIo (S (t0 + 1 + j)) (clk t0) (rows (aio st))))); cbn [aW aG aS aseq afn aio ck st_time]; auto.
           { rewrite <- HW1. exact HGn. } { rewrite Hlen. lia. }
    + cbn [bind]. rewrite Nat.add_0_r in Hlen. apply (Hnext st); auto.
      { apply Hfn. intros ->. rewrite checked_at_0 in Hch. discriminate. } { rewrite Hlen; auto. }
  - rewrite E. cbn [bind]. destruct (run_ret _ _ _ _ _ _ _ Hrun Hmax) as [Hret _]. rewrite Hret. exists k, stopped, st.
    split; [reflexivity|]. split; [exact Hrun|]. destruct stopped.
    + destruct Hst as (H1 & H2 & H3). auto.
    + destruct Hst as (H1 & _). split; [auto|discriminate].
Qed.
End P.
