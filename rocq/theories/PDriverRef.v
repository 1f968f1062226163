(** The pairwise-perturbation drivers of the model compute exactly what the algorithms of Spec12 compute *)
From Coq Require Import List ZArith QArith Lia Bool Arith Permutation Ring.
From Verif Require Import Base Num Tensor Spec Spec2 Spec12 MCommon MCP PBase PTensor PSum PMttkrp PMat PKhatri PGrad PMatAlg PSolve
  PNormalize PTree PDT PDTSweep PALS PDrivers PPP PPPSweep PPPDriver PropSort PPU.
Import ListNotations.
Local Close Scope Q_scope.

Section P.
Context {N : num} (RL : ring_laws N) (LA : lapack N).
Local Open Scope num_scope.
Context (V : tensor N) (R : nat).
Let o := order V.
Hypothesis Hsh : svd_shaped (svd LA).
Let solve := pinv_solve (svd LA) R.
Context (clk : nat -> N) (rank0 : bool).

Lemma measure_timed W G x : (2 <= o <= 19)%nat -> factors_ok V W R -> length G = o ->
  measure clk V W G (lbuf o) x = Ok (grad_norm G, resid_norm V W R, fst (timed clk x), snd (timed clk x)).
Proof.
  intros Ho HW HG. unfold measure, check_begin, wtime. fold o. rewrite (sumnorm_ok RL clk) by auto. cbn [bind].
  assert (Ed := diffnorm_ok RL clk V W R Ho HW). fold o in Ed. rewrite Ed. cbn [bind]. unfold check_end, wtime, set_st, timed. cbn [ck st_time rows fst snd].
  replace (ck x + 1)%nat with (S (ck x)) by lia. replace (ck x + 2)%nat with (S (S (ck x))) by lia. replace (ck x + 3)%nat with (S (S (S (ck x)))) by lia. reflexivity.
Qed.
Lemma stop_finished g tol limit (x : io (N:=N)) : stop_test clk g tol limit x = finished clk g tol limit x.
Proof. unfold stop_test, finished, wtime. destruct (nltb g tol); auto. cbn [ck st_time rows]. replace (ck x + 1)%nat with (S (ck x)) by lia. reflexivity. Qed.
Lemma emit_written r (x : io (N:=N)) : emit rank0 x r = written rank0 r x.
Proof. reflexivity. Qed.
Lemma count_forall (p : nat -> bool) n : Nat.eqb (count p n) n = forallb p (seq 0 n).
Proof.
  induction n as [|n IH]; [reflexivity|]. rewrite (count_S LA V R), seq_S, forallb_app, <- IH. cbn [forallb Nat.add]. rewrite andb_true_r.
  assert (H : (count p n <= n)%nat).
  { unfold count. rewrite <- (seq_length n 0) at 2. clear. induction (seq 0 n) as [|a l IH]; cbn; [lia|]. destruct (p a); cbn; lia. }
  clear IH. destruct (p n); [rewrite andb_true_r|rewrite andb_false_r].
  - destruct (Nat.eqb_spec (count p n) n); destruct (Nat.eqb_spec (count p n + 1) (S n)); auto; lia.
  - destruct (Nat.eqb_spec (count p n + 0) (S n)); auto; lia.
Qed.
Lemma count_exists (p : nat -> bool) n : (0 <? count p n)%nat = existsb p (seq 0 n).
Proof.
  unfold count. induction (seq 0 n) as [|a l IH]; [reflexivity|]. cbn. destruct (p a); auto.
Qed.

Section Par.
Context (tol tol_init limit lambda ratio : N) (maxiter resprint : Z) (bench same : bool) (fuel size : nat).
Hypothesis Hlam : neqb lambda n0 = true -> lambda = n0.
Hypothesis Hrat : neqb ratio n1 = true -> ratio = n1.
Hypothesis Hres : resprint <> 0%Z.
Definition good (p : pp_state (N:=N)) : Prop := factors_ok V (pW p) R /\ mats_ok V (pG p) R /\ mats_ok V (pdW p) R.

Lemma exact_check_ok iter s : (2 <= o <= 19)%nat -> good (bst s) -> bseq s = lbuf o ->
  DT_sub_check clk rank0 V tol limit iter s
   = Ok (fst (exact_check clk rank0 V R tol limit iter (bst s)), with_bst s (snd (exact_check clk rank0 V R tol limit iter (bst s)))).
Proof.
  intros Ho (HW & HG & HD) Hsq. unfold DT_sub_check. rewrite Hsq, measure_timed by (auto; apply HG). cbn [bind]. unfold exact_check.
  destruct (timed clk (pio (bst s))) as [dt x]. cbn [fst snd]. rewrite emit_written, stop_finished. destruct (finished _ _ _ _ _); reflexivity.
Qed.
Lemma exact_check_good iter p : good p -> good (snd (exact_check clk rank0 V R tol limit iter p)).
Proof. intros H. unfold exact_check. destruct (timed _ _). destruct (finished _ _ _ _ _). exact H. Qed.

(** ** the exact phase *)
Let dstep := exact_sweep solve lambda V R.
Let dgrad := als_grads solve lambda V (zmats V R) R.
Section Exact.
Hypothesis Ho : (o = 4 \/ 6 <= o <= 19)%nat.
Hypothesis Hf : (o < fuel)%nat.
Lemma exact_phase_ok iter p : good p ->
  alsCP_DT_sub LA clk rank0 fuel V tol tol_init limit lambda maxiter resprint iter p
  = Ok (exact_phase clk rank0 V R tol tol_init limit maxiter resprint dstep dgrad (Z.to_nat (maxiter + 1 - iter)) iter (zmats V R) p) /\
  good (snd (exact_phase clk rank0 V R tol tol_init limit maxiter resprint dstep dgrad (Z.to_nat (maxiter + 1 - iter)) iter (zmats V R) p)).
Proof.
  intros Hp. unfold alsCP_DT_sub. fold o. assert (Hp' := Hp). destruct Hp' as (HW & HG & HD).
  rewrite (W_lget LA V R (pW p) 0) by (auto; fold o; lia). cbn [bind].
  destruct (W_dims V R (pW p) 0 HW ltac:(fold o; lia)) as [_ Hc]. rewrite Hc.
  rewrite (mk_regul_ok RL). cbn [bind].
  destruct (for_inv (fun j (D : list (tensor N)) => D = map (fun m => zeros [nth m (lens V) 0%nat; R]) (seq 0 j))
     (fun i acc => Wi <- lget (pW p) i ;; Ok (acc ++ [zeros [nrow Wi; ncol Wi]])) 0 o []) as (Wp & EWp & HWp).
  { lia. } { reflexivity. }
  { intros j D Hj ->. rewrite (W_lget LA V R (pW p) j) by (auto; fold o; lia). cbn [bind].
    destruct (W_dims V R (pW p) j HW ltac:(fold o; lia)) as [Er Ec]. rewrite Er, Ec. eexists; split; [reflexivity|].
    rewrite seq_S, map_app. reflexivity. }
  rewrite EWp. cbn [bind]. rewrite mk_seqV_ok. cbn [bind]. change (Wp = zmats V R) in HWp. subst Wp.
  destruct (tree_build o fuel) as (parent & sibling & Et & Htree); [lia|lia|]. rewrite Et. cbn [bind].
  set (body := DT_sub_iter _ _ _ _ _ _ _ _ _ _ _ _ _ _). unfold rounds.
  assert (Hloop : forall n it s prev, good (bst s) -> lens (bS s) = [R; R] -> mats_ok V prev R -> bprev s = prev -> bseq s = lbuf o ->
     exists f s', for_iter n it body s = Ok (f, fst (exact_phase clk rank0 V R tol tol_init limit maxiter resprint dstep dgrad n it prev (bst s)), s') /\
       bst s' = snd (exact_phase clk rank0 V R tol tol_init limit maxiter resprint dstep dgrad n it prev (bst s)) /\ good (bst s')).
  { induction n as [|n IH]; intros it s prev Hs HS Hprev Eprev Hsq; cbn [for_iter exact_phase].
    - exists Go, s. auto.
    - unfold body at 1, DT_sub_iter, zmod. destruct (Z.eqb_spec resprint 0); [contradiction|]. cbn [bind].
      fold (check_due maxiter resprint it).
      assert (Hc' : exists s1, (if check_due maxiter resprint it then DT_sub_check clk rank0 V tol limit it s else Ok (false, s))
          = Ok (fst (if check_due maxiter resprint it then exact_check clk rank0 V R tol limit it (bst s) else (false, bst s)), s1) /\
          bst s1 = snd (if check_due maxiter resprint it then exact_check clk rank0 V R tol limit it (bst s) else (false, bst s)) /\
          good (bst s1) /\ bS s1 = bS s /\ bprev s1 = bprev s /\ bseq s1 = bseq s).
      { destruct (check_due maxiter resprint it).
        - rewrite exact_check_ok by (auto; lia). eexists; split; [reflexivity|]. split; [reflexivity|]. split; [apply exact_check_good; auto|]. auto.
        - exists s. cbn [fst snd]. auto 10. }
      destruct Hc' as (s1 & -> & Es1 & Hg1 & HS1 & HP1 & Hq1). cbn [bind].
      destruct (if check_due maxiter resprint it then exact_check clk rank0 V R tol limit it (bst s) else (false, bst s)) as [stop p1] eqn:Ec.
      cbn [fst snd] in *. subst p1. destruct stop.
      + exists Break, s1. cbn [bind]. auto.
      + cbv zeta. rewrite Hq1, Hsq. destruct Hg1 as (P1 & P2 & P3).
        destruct (DT_sub_sweep_ok RL LA V R Hsh parent sibling fuel Htree ltac:(fold o; lia) ltac:(fold o; lia) Hf (zmats V R)
           (pG (bst s1)) (pW (bst s1)) (bS s1) lambda) as (Sm' & Es & HS'); auto.
        { intros; apply (zmats_zero V R); auto. } { rewrite HS1. auto. }
        fold o in Es. rewrite Es. cbn [bind].
        change (rescaled (als_sweep (pinv_solve (svd LA) R) lambda V (zmats V R) R (pW (bst s1)))) with (dstep (pW (bst s1))).
        assert (HWn : factors_ok V (dstep (pW (bst s1))) R) by (apply exact_sweep_factors; auto).
        fold o. assert (Eup := dw_update_ok RL LA V R tol_init (dstep (pW (bst s1))) (pdW (bst s1)) (bprev s1) HWn P3).
        fold o in Eup. rewrite Eup by (rewrite HP1, Eprev; auto). cbn [bind]. clear Eup. rewrite HP1, Eprev.
        change (changed V (dstep (pW (bst s1))) prev) with (differences V (dstep (pW (bst s1))) prev).
        change (sweep_grads LA V R lambda (zmats V R) (pW (bst s1))) with (dgrad (pW (bst s1))). cbn [pW pG pdW ppn pio].
        rewrite count_forall.
        match goal with |- context [forallb ?f (seq 0 o)] => change (forallb f (seq 0 o)) with (settled V tol_init (dstep (pW (bst s1))) (differences V (dstep (pW (bst s1))) prev)) end.
        assert (Hg : good (mkPP (dstep (pW (bst s1))) (dgrad (pW (bst s1))) (differences V (dstep (pW (bst s1))) prev) (ppn (bst s1)) (pio (bst s1)))).
        { split; [auto|]. cbn [pG pdW]. split; [apply (als_grads_mats RL LA V R Hsh); auto|]. apply changed_mats, factors_mats. auto. }
        destruct (settled _ _ _ _).
        * eexists Return, _. cbn [bind]. split; [reflexivity|]. cbn [bst]. auto.
        * cbn [bind]. match goal with |- context [for_iter n (it + 1) body ?s2] => destruct (IH (it + 1)%Z s2 (dstep (pW (bst s1)))) as (f & s' & E & E2 & E3) end.
          { exact Hg. } { exact HS'. } { apply factors_mats; auto. } { reflexivity. } { reflexivity. }
          cbn [bst] in E, E2. exists f, s'. auto. }
  destruct (Hloop (Z.to_nat (maxiter + 1 - iter)) iter (mkSub p (zeros [R; R]) (zmats V R) (lbuf o) sempty n0) (zmats V R)) as (f & s' & E & E2 & E3); auto.
  { apply zmats_mats. }
  fold o in E. rewrite E. cbn [bind]. cbn [bst] in E2 |- *. rewrite E2. split; [|rewrite <- E2; auto]. destruct (exact_phase _ _ _ _ _ _ _ _ _ _ _ _ _ _ _); reflexivity.
Qed.
End Exact.

(** ** the approximate phase *)
Section Approx.
Hypothesis Ho : (3 <= o <= 9)%nat.
Lemma approx_check_ok iter s : good (bst s) -> bseq s = lbuf o ->
  let '(stop, first, p) := approx_check clk rank0 V R tol limit maxiter bench iter (bdf s) (bst s) in
  PP_check clk rank0 V tol limit bench maxiter iter s = Ok (stop, mkSub p (bS s) (bprev s) (bseq s) (bmp s) first) /\ good p /\ pW p = pW (bst s).
Proof.
  intros (HW & HG & HD) Hsq. unfold PP_check. rewrite Hsq, measure_timed by (auto; try lia; apply HG). cbn [bind]. unfold approx_check.
  destruct (timed clk (pio (bst s))) as [dt x]. cbn [fst snd]. unfold wtime, set_st. cbn [ck st_time rows].
  replace (ck x + 1)%nat with (S (ck x)) by lia. rewrite !emit_written.
  destruct bench; [destruct rank0; [destruct (Z.eqb iter maxiter)|]|]; cbn [negb]; rewrite stop_finished;
    destruct (finished _ _ _ _ _) as [stop x'] eqn:Ef; (split; [reflexivity|split; [exact (conj HW (conj HG HD))|reflexivity]]).
Qed.
(** what both variants do before the sweep *)
Definition head (sq : buf Z) (init_iter iter : Z) (s : sub_state (N:=N)) : res (option (bool * sub_state (N:=N))) :=
  cnt <- (if bench then Ok 0%nat else dw_count (order V) tol_init (pW (bst s)) (pdW (bst s))) ;;
  let init := Z.eqb (Z.rem (iter - init_iter) 15) 0 || (0 <? cnt)%nat in
  if init && ((0 <? cnt)%nat || negb (Z.eqb iter init_iter)) then Ok None
  else
    s <- (if init then
            let p := bst s in
            dW <- zero_dW (order V) (pdW p) ;;
            mp <- build_operators same V (pW p) sq ;;
            Ok (mkSub (mkPP (pW p) (pG p) dW (ppn p) (pio p)) (bS s) (pW p) (bseq s) mp (bdf s))
          else Ok s) ;;
    m <- zmod iter resprint ;;
    r <- (if Z.eqb m 0 || Z.eqb iter maxiter || Z.eqb iter init_iter
          then PP_check clk rank0 V tol limit bench maxiter iter s else Ok (false, s)) ;;
    Ok (Some r).
Lemma PP_head regul sq i0 it s :
  PP_sub_iter LA clk rank0 same V tol tol_init limit lambda ratio regul sq maxiter resprint bench i0 it s =
  (h <- head sq i0 it s ;;
   match h with
   | None => Ok (Return, s)
   | Some (true, s) => Ok (Break, s)
   | Some (false, s) =>
      let p := bst s in
      '(W, G, dW, Sm, sV) <- PP_sweep LA V (bmp s) (bprev s) lambda ratio regul sq (pW p) (pG p) (pdW p) (bS s) (bseq s) ;;
      Ok (Go, mkSub (mkPP W G dW (ppn p) (pio p)) Sm (bprev s) sV (bmp s) (bdf s))
   end).
Proof.
  unfold PP_sub_iter, head. destruct (if bench then Ok 0%nat else _) as [cnt|e]; cbn [bind]; [|reflexivity].
  destruct (_ && _); [reflexivity|].
  destruct (if _ : bool then _ else Ok s) as [s1|e]; cbn [bind]; [|reflexivity].
  destruct (zmod it resprint) as [m|e]; cbn [bind]; [|reflexivity].
  destruct (if _ : bool then _ else Ok (false, s1)) as [[stop s2]|e]; cbn [bind]; [|reflexivity]. destruct stop; reflexivity.
Qed.
Lemma PU_head regul sq i0 it u :
  PU_sub_iter LA clk rank0 same V tol tol_init limit lambda ratio size regul sq maxiter resprint bench i0 it u =
  (h <- head sq i0 it (vb u) ;;
   match h with
   | None => Ok (Return, u)
   | Some (true, s) => Ok (Break, mkPUsub s (vM u) (vdM u) (vrel u))
   | Some (false, s) =>
      let p := bst s in
      '(rel, t) <- PU_sweep LA V (bmp s) (bprev s) lambda ratio regul sq size (vrel u)
                      (mkPU (pW p) (pG p) (pdW p) (vM u) (vdM u) (bS s) (bseq s)) ;;
      Ok (Go, mkPUsub (mkSub (mkPP (uW t) (uG t) (udW t) (ppn p) (pio p)) (uS t) (bprev s) (useq t) (bmp s) (bdf s)) (uM t) (udM t) rel)
   end).
Proof.
  unfold PU_sub_iter, head. destruct (if bench then Ok 0%nat else _) as [cnt|e]; cbn [bind]; [|reflexivity].
  destruct (_ && _); [reflexivity|].
  destruct (if _ : bool then _ else Ok (vb u)) as [s1|e]; cbn [bind]; [|reflexivity].
  destruct (zmod it resprint) as [m|e]; cbn [bind]; [|reflexivity].
  destruct (if _ : bool then _ else Ok (false, s1)) as [[stop s2]|e]; cbn [bind]; [|reflexivity]. destruct stop; reflexivity.
Qed.

(** the model state s after k sweeps at the checkpoint p0 stands for the abstract state p and the time [first] *)
Definition stands (p0 : pp_state (N:=N)) (k : nat) (s : sub_state (N:=N)) (first : N) (p : pp_state (N:=N)) : Prop :=
  good (bst s) /\ good p /\ lens (bS s) = [R; R] /\ bseq s = lbuf o /\ bdf s = first /\
  (k = 0%nat -> bst s = p0 /\ p = mkPP (pW p0) (pG p0) (zmats V R) (ppn p0) (pio p0)) /\
  (k <> 0%nat -> bst s = p /\ bprev s = pW p0 /\ pptab V R (bmp s) (pW p0)).
Definition leave (k : nat) (p : pp_state (N:=N)) : bool :=
  negb (Nat.eqb k 0) && (Nat.eqb (Nat.modulo k 15) 0 || (negb bench && too_far V tol_init (pW p) (pdW p))).
Definition entry (iter : Z) (k : nat) (first : N) (p : pp_state (N:=N)) : bool * N * pp_state (N:=N) :=
  if check_due maxiter resprint iter || Nat.eqb k 0 then approx_check clk rank0 V R tol limit maxiter bench iter first p else (false, first, p).
Lemma head_ok p0 i0 k s first p : good p0 -> negb bench && too_far V tol_init (pW p0) (pdW p0) = false -> stands p0 k s first p ->
  if leave k p then head (lbuf o) i0 (i0 + Z.of_nat k) s = Ok None else
  let '(stop, first', p') := entry (i0 + Z.of_nat k) k first p in
  exists s', head (lbuf o) i0 (i0 + Z.of_nat k) s = Ok (Some (stop, s')) /\ bst s' = p' /\ bdf s' = first' /\ lens (bS s') = [R; R] /\ bseq s' = lbuf o /\
    bprev s' = pW p0 /\ pptab V R (bmp s') (pW p0) /\ good p'.
Proof.
  intros Hp0 Hfar (Hs & Hp & HS & Hsq & Hfst & H0 & Hk). unfold head. fold o.
  assert (Hcnt : exists c, (if bench then Ok 0%nat else dw_count o tol_init (pW (bst s)) (pdW (bst s))) = Ok c /\ (0 <? c)%nat = negb bench && too_far V tol_init (pW (bst s)) (pdW (bst s))).
  { destruct bench; [exists 0%nat; auto|]. eexists. split; [apply (dw_count_ok LA V R); apply Hs|]. cbn [negb andb]. apply count_exists. }
  destruct Hcnt as (c & -> & Ec). cbn [bind]. rewrite Ec. clear Ec c.
  replace (i0 + Z.of_nat k - i0)%Z with (Z.of_nat k) by lia.
  assert (Hrem : (Z.rem (Z.of_nat k) 15 =? 0)%Z = (Nat.modulo k 15 =? 0)%nat).
  { rewrite Z.rem_mod_nonneg by lia. change 15%Z with (Z.of_nat 15). rewrite <- Nat2Z.inj_mod.
    clear. destruct (Nat.eqb_spec (k mod 15) 0) as [->|]; [reflexivity|]. apply Z.eqb_neq. lia. }
  rewrite Hrem. clear Hrem.
  assert (Hit : (i0 + Z.of_nat k =? i0)%Z = (k =? 0)%nat).
  { clear. destruct (Nat.eqb_spec k 0); [subst; apply Z.eqb_eq; lia|apply Z.eqb_neq; lia]. }
  rewrite Hit. clear Hit. unfold leave, zmod. destruct (Z.eqb_spec resprint 0); [contradiction|].
  assert (Htail : forall s1, bst s1 = p -> bdf s1 = first -> lens (bS s1) = [R; R] -> bseq s1 = lbuf o -> bprev s1 = pW p0 -> pptab V R (bmp s1) (pW p0) ->
    let '(stop, first', p') := entry (i0 + Z.of_nat k) k first p in
    exists s', (r <- (if Z.eqb (Z.rem (i0 + Z.of_nat k) resprint) 0 || Z.eqb (i0 + Z.of_nat k) maxiter || (k =? 0)%nat
          then PP_check clk rank0 V tol limit bench maxiter (i0 + Z.of_nat k) s1 else Ok (false, s1)) ;; Ok (Some r)) = Ok (Some (stop, s')) /\
      bst s' = p' /\ bdf s' = first' /\ lens (bS s') = [R; R] /\ bseq s' = lbuf o /\ bprev s' = pW p0 /\ pptab V R (bmp s') (pW p0) /\ good p').
  { intros s1 E1 E2 E3 E4 E5 E6. unfold entry. fold (check_due maxiter resprint (i0 + Z.of_nat k)). destruct (_ || _).
    - assert (Ha := approx_check_ok (i0 + Z.of_nat k) s1). rewrite E1, E2 in Ha. destruct (approx_check _ _ _ _ _ _ _ _ _ _ _) as [[stop f'] p'].
      destruct Ha as (Ha & Hg & _); auto. rewrite Ha. cbn [bind]. eexists. split; [reflexivity|]. cbn [bst bdf bS bseq bprev bmp]. auto 10.
    - exists s1. cbn [bind]. auto 10. }
  destruct (Nat.eq_dec k 0) as [->|Hk0].
  - destruct (H0 eq_refl) as [Eb Ep]. rewrite Eb, Hfar. cbn [Nat.eqb negb orb andb Nat.modulo Nat.divmod Nat.sub snd].
    destruct Hp0 as (P1 & P2 & P3). cbv zeta. rewrite (zero_dW_ok RL LA V R) by auto. cbn [bind].
    destruct (build_operators_tab RL V R LA same (pW p0) P1 Ho) as (mp & Em & Ht & _). fold o in Em. rewrite Em. cbn [bind].
    apply Htail; auto.
  - destruct (Hk Hk0) as (Eb & Epr & Ht). rewrite Eb.
    assert ((k =? 0)%nat = false) as Ek by (apply Nat.eqb_neq; auto). rewrite Ek in *. cbn [negb andb]. rewrite orb_true_r, andb_true_r.
    destruct ((k mod 15 =? 0)%nat || _); [reflexivity|]. cbn [bind]. apply Htail; auto.
Qed.

(** *** all modes *)
Lemma pp_phase_ok iter p : good p ->
  alsCP_PP_sub LA clk rank0 same V tol tol_init limit lambda ratio maxiter resprint bench iter p
  = Ok (approx_phase clk rank0 V R tol tol_init limit maxiter resprint bench (pp_step_all solve lambda ratio V R) tt iter p) /\
  good (snd (approx_phase clk rank0 V R tol tol_init limit maxiter resprint bench (pp_step_all solve lambda ratio V R) tt iter p)).
Proof.
  intros Hp. assert (Hp' := Hp). destruct Hp' as (HW & HG & HD). unfold alsCP_PP_sub. fold o.
  rewrite (W_lget LA V R (pW p) 0) by (auto; fold o; lia). cbn [bind].
  destruct (W_dims V R (pW p) 0 HW ltac:(fold o; lia)) as [_ Hc]. rewrite Hc.
  rewrite (mk_regul_ok RL). cbn [bind]. rewrite mk_seqV_ok. cbn [bind]. unfold rounds, approx_phase.
  set (body := PP_sub_iter _ _ _ _ _ _ _ _ _ _ _ _ _ _ _ _).
  destruct (Z.leb_spec iter maxiter) as [Hle|Hgt].
  2:{ replace (Z.to_nat (maxiter + 1 - iter)) with 0%nat by lia. cbn [for_iter bind bst snd]. auto. }
  destruct (negb bench && too_far V tol_init (pW p) (pdW p)) eqn:Efar.
  { replace (Z.to_nat (maxiter + 1 - iter)) with (S (Z.to_nat (maxiter - iter))) by lia. cbn [for_iter]. unfold body at 1. rewrite PP_head. unfold head. fold o.
    destruct bench; [discriminate|]. cbn [negb andb] in Efar. rewrite (dw_count_ok LA V R) by auto. cbn [bind bst].
    rewrite count_exists. match goal with |- context [existsb ?f ?l] => change (existsb f l) with (too_far V tol_init (pW p) (pdW p)) end. rewrite Efar. rewrite orb_true_r. cbn [orb andb bind bst]. auto. }
  assert (Hloop : forall n k s first q, (n = 0%nat -> k <> 0%nat) -> stands p k s first q ->
     exists f it s', for_iter n (iter + Z.of_nat k) body s = Ok (f, it, s') /\
       ((match f with Return => it | _ => if bench then (it + 1)%Z else it end), bst s') =
         approx_loop clk rank0 V R tol tol_init limit maxiter resprint bench (pp_step_all solve lambda ratio V R (pW p)) n k (iter + Z.of_nat k) first (tt, q) /\
       good (bst s')).
  { induction n as [|n IH]; intros k s first q Hn Hst; cbn [for_iter approx_loop fst snd].
    - exists Go, (iter + Z.of_nat k)%Z, s. split; [reflexivity|]. destruct Hst as (Hs & Hq & _ & _ & _ & _ & Hk). destruct (Hk (Hn eq_refl)) as (-> & _). auto.
    - unfold body at 1. rewrite PP_head. fold (leave k q). assert (Hh := head_ok p iter k s first q Hp Efar Hst). destruct (leave k q) eqn:El.
      + rewrite Hh. cbn [bind]. exists Return, (iter + Z.of_nat k)%Z, s. split; [reflexivity|]. destruct Hst as (Hs & Hq & _ & _ & _ & _ & Hk).
        assert (k <> 0%nat) by (intros ->; discriminate). destruct Hk as (-> & _); auto.
      + fold (entry (iter + Z.of_nat k) k first q). destruct (entry (iter + Z.of_nat k) k first q) as [[stop first'] p'].
        destruct Hh as (s' & -> & Eb & Efs & ES & Esq & Epr & Etab & Hg). cbn [bind]. destruct stop.
        * exists Break, (iter + Z.of_nat k)%Z, s'. cbn [bind]. split; [reflexivity|]. rewrite Eb. auto.
        * cbv zeta. rewrite Eb, Epr, Esq. destruct Hg as (P1 & P2 & P3).
          destruct (PP_sweep_ok RL V R LA Hsh (bmp s') (pW p) (pW p') (pG p') (pdW p') (bS s') lambda ratio) as (Sm' & Es & HS'); auto.
          { fold o. lia. }
          fold o in Es. rewrite Es. cbn [bind].
          replace (iter + Z.of_nat k + 1)%Z with (iter + Z.of_nat (S k))%Z by lia.
          assert (Hms := pp_sweep_ok_mats RL LA V R Hsh lambda ratio (pW p) (pW p') (pdW p') HW P1 P3).
          assert (HGs := pp_grads_mats RL LA V R Hsh lambda ratio (pW p) (pW p') (pdW p') HW P1 P3). fold solve in Hms, HGs.
          match goal with |- context [for_iter n _ body ?s2] => destruct (IH (S k) s2 first' (snd (pp_step_all solve lambda ratio V R (pW p) (tt, p')))) as (f & it & s3 & E1 & E2 & E3) end.
          { discriminate. }
          { unfold stands, pp_step_all. cbn [bst bS bseq bdf bprev bmp snd]. unfold pp_sweep in *. fold o in Hms |- *. fold solve.
            destruct (pp_upto solve lambda ratio V (pW p) R o (pW p', pdW p')) as [W' dW'] eqn:EU. cbn [fst snd] in Hms |- *.
            split; [exact (conj (proj1 Hms) (conj HGs (proj2 Hms)))|]. split; [exact (conj (proj1 Hms) (conj HGs (proj2 Hms)))|].
            split; [auto|]. split; [auto|]. split; [auto|]. split; [discriminate|]. intros _. auto. }
          exists f, it, s3. split; [exact E1|]. split; [|exact E3].
          rewrite E2. f_equal. unfold pp_step_all. cbn [snd]. destruct (pp_sweep _ _ _ _ _ _ _). reflexivity. }
  destruct (Hloop (Z.to_nat (maxiter + 1 - iter)) 0%nat (mkSub p (zeros [R; R]) [] (lbuf o) sempty n0) n0 (mkPP (pW p) (pG p) (zmats V R) (ppn p) (pio p)))
    as (f & it & s' & E1 & E2 & E3).
  { lia. }
  { unfold stands. cbn [bst bS bseq bdf]. split; [auto|]. split; [exact (conj HW (conj HG (zmats_mats V R)))|]. split; [auto|]. split; [auto|]. split; [auto|].
    split; [auto|]. intros []; auto. }
  rewrite Z.add_0_r in E1, E2. rewrite E1. cbn [bind]. rewrite <- E2. cbn [snd]. auto.
Qed.

(** *** the modes of largest priority *)
Hypothesis Hsz : (size <= o)%nat.
Let pstep := pu_step_some solve lambda ratio V R size.
Definition pu_good (a : (list (tensor N) * list (tensor N) * list N) * pp_state (N:=N)) : Prop :=
  let '((M, dM, rel), p) := a in good p /\ mats_ok V M R /\ mats_ok V dM R /\ length rel = o.
Lemma pu_phase_ok iter p : good p ->
  alsCP_PP_partupdate_sub LA clk rank0 same V tol tol_init limit lambda ratio size maxiter resprint bench iter p
  = Ok (approx_phase clk rank0 V R tol tol_init limit maxiter resprint bench pstep (zmats V R, zmats V R, repeat n0 o) iter p) /\
  good (snd (approx_phase clk rank0 V R tol tol_init limit maxiter resprint bench pstep (zmats V R, zmats V R, repeat n0 o) iter p)).
Proof.
  intros Hp. assert (Hp' := Hp). destruct Hp' as (HW & HG & HD). unfold alsCP_PP_partupdate_sub. fold o.
  rewrite (W_lget LA V R (pW p) 0) by (auto; fold o; lia). cbn [bind].
  destruct (W_dims V R (pW p) 0 HW ltac:(fold o; lia)) as [_ Hc]. rewrite Hc.
  rewrite (mk_regul_ok RL). cbn [bind]. rewrite mk_seqV_ok. cbn [bind]. rewrite (mk_dW_ok RL LA V R) by auto. cbn [bind]. unfold rounds, approx_phase.
  set (body := PU_sub_iter _ _ _ _ _ _ _ _ _ _ _ _ _ _ _ _ _).
  destruct (Z.leb_spec iter maxiter) as [Hle|Hgt].
  2:{ replace (Z.to_nat (maxiter + 1 - iter)) with 0%nat by lia. cbn [for_iter bind bst vb snd]. auto. }
  destruct (negb bench && too_far V tol_init (pW p) (pdW p)) eqn:Efar.
  { replace (Z.to_nat (maxiter + 1 - iter)) with (S (Z.to_nat (maxiter - iter))) by lia. cbn [for_iter]. unfold body at 1. rewrite PU_head. unfold head. fold o. cbn [vb].
    destruct bench; [discriminate|]. cbn [negb andb] in Efar. rewrite (dw_count_ok LA V R) by auto. cbn [bind bst].
    rewrite count_exists. match goal with |- context [existsb ?f ?l] => change (existsb f l) with (too_far V tol_init (pW p) (pdW p)) end.
    rewrite Efar. rewrite orb_true_r. cbn [orb andb bind bst vb]. auto. }
  assert (Hloop : forall n k u first a, (n = 0%nat -> k <> 0%nat) -> stands p k (vb u) first (snd a) -> fst a = (vM u, vdM u, vrel u) -> pu_good a ->
     exists f it u', for_iter n (iter + Z.of_nat k) body u = Ok (f, it, u') /\
       ((match f with Return => it | _ => if bench then (it + 1)%Z else it end), bst (vb u')) =
         approx_loop clk rank0 V R tol tol_init limit maxiter resprint bench (pstep (pW p)) n k (iter + Z.of_nat k) first a /\
       good (bst (vb u'))).
  { induction n as [|n IH]; intros k u first a Hn Hst Ha Hag; cbn [for_iter approx_loop].
    - exists Go, (iter + Z.of_nat k)%Z, u. split; [reflexivity|]. destruct Hst as (Hs & Hq & _ & _ & _ & _ & Hk). destruct (Hk (Hn eq_refl)) as (-> & _). auto.
    - unfold body at 1. rewrite PU_head. fold (leave k (snd a)). assert (Hh := head_ok p iter k (vb u) first (snd a) Hp Efar Hst). destruct (leave k (snd a)) eqn:El.
      + rewrite Hh. cbn [bind]. exists Return, (iter + Z.of_nat k)%Z, u. split; [reflexivity|]. destruct Hst as (Hs & Hq & _ & _ & _ & _ & Hk).
        assert (k <> 0%nat) by (intros ->; discriminate). destruct Hk as (-> & _); auto.
      + fold (entry (iter + Z.of_nat k) k first (snd a)). destruct (entry (iter + Z.of_nat k) k first (snd a)) as [[stop first'] p'].
        destruct Hh as (s' & -> & Eb & Efs & ES & Esq & Epr & Etab & Hg). cbn [bind]. destruct stop.
        * eexists Break, (iter + Z.of_nat k)%Z, _. cbn [bind]. split; [reflexivity|]. cbn [vb]. rewrite Eb. auto.
        * cbv zeta. rewrite Eb, Epr, Esq. destruct Hg as (P1 & P2 & P3). destruct a as [[[M dM] rel] q]. cbn [fst snd] in *. injection Ha as -> -> ->.
          destruct Hag as (_ & A1 & A2 & A3).
          destruct (PU_sweep_ok RL LA V R Hsh (bmp s') (pW p) (mkPu (pW p') (pdW p') (vdM u) (vM u) (pG p')) (bS s') lambda ratio size (vrel u)) as (Sm' & Es & HS' & Hok');
            [clear - Ho; unfold o in Ho; lia|exact Hlam|exact Hrat|exact HW|exact (conj P1 (conj P3 (conj A2 (conj A1 P2))))|exact ES|exact Etab|exact A3|exact Hsz
            |assert (A4 := C46_permutation N (vrel u)); rewrite A3 in A4; exact A4|].
          unfold of_pu in Es. cbn [suW sudW sudM suM suG] in Es. fold o in Es. rewrite Es. cbn [bind uW uG udW uM udM uS useq].
          replace (iter + Z.of_nat k + 1)%Z with (iter + Z.of_nat (S k))%Z by lia.
          destruct Hok' as (B1 & B2 & B3 & B4 & B5). fold solve in B1, B2, B3, B4, B5.
          match goal with |- context [for_iter n _ body ?u2] => destruct (IH (S k) u2 first' (pstep (pW p) ((vM u, vdM u, vrel u), p'))) as (f & it & s3 & E1 & E2 & E3) end.
          { discriminate. }
          { unfold stands, pstep, pu_step_some. cbn [bst bS bseq bdf bprev bmp snd vb].
            split; [exact (conj B1 (conj B5 B2))|]. split; [exact (conj B1 (conj B5 B2))|].
            split; [auto|]. split; [auto|]. split; [auto|]. split; [discriminate|]. intros _. auto. }
          { reflexivity. }
          { unfold pu_good, pstep, pu_step_some. split; [exact (conj B1 (conj B5 B2))|]. split; [auto|]. split; [auto|]. rewrite map_length, seq_length. reflexivity. }
          exists f, it, s3. auto. }
  destruct (Hloop (Z.to_nat (maxiter + 1 - iter)) 0%nat (mkPUsub (mkSub p (zeros [R; R]) [] (lbuf o) sempty n0) (zmats V R) (zmats V R) (repeat n0 o)) n0
     ((zmats V R, zmats V R, repeat n0 o), mkPP (pW p) (pG p) (zmats V R) (ppn p) (pio p))) as (f & it & s' & E1 & E2 & E3).
  { lia. }
  { unfold stands. cbn [bst bS bseq bdf vb snd]. split; [auto|]. split; [exact (conj HW (conj HG (zmats_mats V R)))|]. split; [auto|]. split; [auto|]. split; [auto|].
    split; [auto|]. intros []; auto. }
  { reflexivity. }
  { unfold pu_good. split; [exact (conj HW (conj HG (zmats_mats V R)))|]. split; [apply zmats_mats|]. split; [apply zmats_mats|]. apply repeat_length. }
  rewrite Z.add_0_r in E1, E2. rewrite E1. cbn [bind]. rewrite <- E2. cbn [snd]. auto.
Qed.
End Approx.

(** ** the driver *)
Lemma loop_ok ex ap dtsub sub : 
  (bench = true \/ forall iter p, good p -> dtsub iter p = Ok (ex iter p) /\ good (snd (ex iter p))) ->
  (forall iter p, good p -> sub iter p = Ok (ap iter p) /\ good (snd (ap iter p))) ->
  forall wf iter p, good p ->
  pp_while wf dtsub sub tol maxiter bench iter p =
  match driver_loop tol maxiter bench ex ap wf iter p with Some r => Ok r | None => Err LoopFuel end.
Proof.
  intros Hex Hap. induction wf as [|wf IH]; intros iter p Hp; cbn [pp_while driver_loop]; destruct (_ && _); auto.
  assert (H1 : (if bench then Ok (iter, p) else dtsub iter p) = Ok (if bench then (iter, p) else ex iter p) /\ good (snd (if bench then (iter, p) else ex iter p))).
  { destruct bench; auto. destruct Hex as [|Hex]; [discriminate|]. auto. }
  destruct H1 as [-> Hg]. cbn [bind]. destruct (if bench then (iter, p) else ex iter p) as [it1 p1]. cbn [snd] in Hg.
  destruct (Hap it1 p1 Hg) as [-> Hg2]. cbn [bind]. destruct (ap it1 p1) as [it2 p2]. apply IH. exact Hg2.
Qed.
Section Final.
Hypothesis Ho : (3 <= o <= 9)%nat.
Hypothesis Hb : bench = true \/ (o = 4 \/ 6 <= o)%nat.
Hypothesis Hf : (o < fuel)%nat.
Theorem alsCP_PP_refines wf W G x : factors_ok V W R -> mats_ok V G R ->
  alsCP_PP LA clk rank0 wf fuel same V W G tol tol_init limit maxiter lambda ratio resprint bench x =
  match pp_algorithm clk rank0 solve V R tol tol_init limit maxiter lambda ratio resprint bench wf W G x with Some r => Ok r | None => Err LoopFuel end.
Proof.
  intros HW HG. unfold alsCP_PP, wtime, set_st. rewrite (mk_dW_ok RL LA V R) by auto. cbn [bind ck st_time rows]. unfold pp_algorithm, driver.
  replace (ck x + 1)%nat with (S (ck x)) by lia.
  rewrite (loop_ok (fun iter p => exact_phase clk rank0 V R tol tol_init limit maxiter resprint dstep dgrad (Z.to_nat (maxiter + 1 - iter)) iter (zmats V R) p)
            (approx_phase clk rank0 V R tol tol_init limit maxiter resprint bench (pp_step_all solve lambda ratio V R) tt)).
  - destruct (driver_loop _ _ _ _ _ _ _ _) as [[it p]|]; reflexivity.
  - destruct Hb as [|Ho']; [left; auto|right]. intros. apply exact_phase_ok; auto. lia.
  - intros. apply pp_phase_ok; auto.
  - split; [auto|]. split; [auto|]. apply zmats_mats.
Qed.
Theorem alsCP_PP_partupdate_refines wf W G x : (size <= o)%nat -> factors_ok V W R -> mats_ok V G R ->
  alsCP_PP_partupdate LA clk rank0 wf fuel same V W G tol tol_init limit maxiter lambda ratio size resprint bench x =
  match pu_algorithm clk rank0 solve V R tol tol_init limit maxiter lambda ratio size resprint bench wf W G x with Some r => Ok r | None => Err LoopFuel end.
Proof.
  intros Hsz HW HG. unfold alsCP_PP_partupdate, wtime, set_st. rewrite (mk_dW_ok RL LA V R) by auto. cbn [bind ck st_time rows]. unfold pu_algorithm, driver.
  replace (ck x + 1)%nat with (S (ck x)) by lia.
  rewrite (loop_ok (fun iter p => exact_phase clk rank0 V R tol tol_init limit maxiter resprint dstep dgrad (Z.to_nat (maxiter + 1 - iter)) iter (zmats V R) p)
            (approx_phase clk rank0 V R tol tol_init limit maxiter resprint bench (pu_step_some solve lambda ratio V R size) (zmats V R, zmats V R, repeat n0 o))).
  - unfold o. destruct (driver_loop _ _ _ _ _ _ _ _) as [[it p]|]; reflexivity.
  - destruct Hb as [|Ho']; [left; auto|right]. intros. apply exact_phase_ok; auto. lia.
  - intros. apply pu_phase_ok; auto.
  - split; [auto|]. split; [auto|]. apply zmats_mats.
Qed.
End Final.
End Par.
End P.
