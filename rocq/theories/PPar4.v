(** The drivers of als_CP.cxx over an arbitrary number type: no failure, shapes kept. *)
From Coq Require Import List ZArith QArith Lia Bool Arith.
From Verif Require Import Base Num Tensor Spec Spec2 MCommon MCP PBase PTensor PSum PMat PMatAlg PSolve PTree PDT PDTSweep PALS PGrad PBuildV PDrivers
  PPP PPPSweep PPPDriver PPar PPar2 PPar3.
Import ListNotations.
Local Close Scope Q_scope.

Section G.
Context {N : num} (V : tensor N) (R : nat).
Let o := order V.
Lemma W_get W i : factors_ok V W R -> (i < o)%nat -> lget W i = Ok (fac W i) /\ nrow (fac W i) = nth i (lens V) 0%nat /\ ncol (fac W i) = R.
Proof.
  intros (H1 & H2 & H3) Hi. split; [rewrite (lget_ok W i tnil) by (fold o in H2; lia); reflexivity|].
  destruct (H3 i Hi) as [E _]. unfold nrow, ncol. rewrite E. auto.
Qed.
Lemma M_get W i : mats_ok V W R -> (i < o)%nat -> lget W i = Ok (fac W i) /\ nrow (fac W i) = nth i (lens V) 0%nat /\ ncol (fac W i) = R.
Proof.
  intros (H2 & H3) Hi. split; [rewrite (lget_ok W i tnil) by (fold o in H2; lia); reflexivity|].
  destruct (H3 i Hi) as [E _]. unfold nrow, ncol. rewrite E. auto.
Qed.
End G.

Section A.
Context {N : num} (LA : lapack N) (Hsh : svd_shaped (svd LA)) (clk : nat -> N) (rank0 : bool) (limit : N).
Context (V : tensor N) (R : nat).
Let o := order V.
Notation RU := Unum_ring.
Notation U := (cp V).

Lemma stop_any pn tol x : exists stop x', stop_test clk pn tol limit x = (stop, x') /\ (stop = true -> stop_rule clk pn tol limit x').
Proof. destruct (stop_test clk pn tol limit x) as [stop x'] eqn:E. exists stop, x'. split; auto. eapply stop_test_ok; eauto. Qed.

(** ** alsCP_DT *)
Theorem alsCP_DT_any W G F tol maxiter lambda resprint bench fuel x :
  (o = 4 \/ 6 <= o <= 19)%nat -> (o < fuel)%nat ->
  factors_ok V W R -> mats_ok V F R -> mats_ok V G R -> (0 <= maxiter)%Z -> resprint <> 0%Z ->
  exists ret st k, alsCP_DT LA clk rank0 fuel V W G F tol limit maxiter lambda resprint bench x = Ok (ret, st) /\
    factors_ok V (dtW st) R /\ mats_ok V (dtG st) R /\ (Z.of_nat k <= maxiter + 1)%Z /\
    (if ret then (Z.of_nat k <= maxiter)%Z /\ stop_rule clk (dtpn st) tol limit (dtio st) else Z.of_nat k = (maxiter + 1)%Z).
Proof.
  intros Ho Hf HW HF HG Hmax Hres. unfold alsCP_DT. fold o. destruct (W_get V R W 0 HW ltac:(lia)) as (-> & _ & Hc). cbn [bind]. rewrite Hc.
  destruct (mk_regul_any R lambda) as (regul & Er & HR). rewrite Er. cbn [bind]. unfold wtime. rewrite mk_seqV_ok. cbn [bind].
  destruct (tree_build o fuel) as (parent & sibling & Et & Htree); [lia|lia|]. rewrite Et. cbn [bind].
  set (x0 := set_st _ _). set (body := alsCP_DT_iter _ _ _ _ _ _ _ _ _ _ _ _ _ _).
  set (Pr := fun (k : nat) st => factors_ok V (dtW st) R /\ mats_ok V (dtG st) R /\ sq_ok R (dtS st) /\ dtseq st = lbuf o).
  set (Qr := fun (f : flow) (k : nat) st => f = Break /\ Pr k st /\ stop_rule clk (dtpn st) tol limit (dtio st)).
  destruct (for_iter_run Pr Qr body (rounds 0 maxiter) 0%nat 0%Z (mkDt W G (zeros [R; R]) (lbuf o) n0 x0)) as (f & k & st & E & Hst).
  - split; [auto|]. split; [auto|]. split; [split; [reflexivity|apply tabulate_wf]|reflexivity].
  - intros k st Hk (HW1 & HG1 & HS1 & Hsq). subst body. unfold alsCP_DT_iter, zmod.
    destruct (Z.eqb_spec resprint 0); [contradiction|]. cbn [bind]. set (it := (0 + Z.of_nat (k - 0))%Z).
    assert (Hc' : exists stop st1, (if (Z.rem it resprint =? 0)%Z || (it =? maxiter)%Z
        then alsCP_DT_check clk rank0 V tol limit bench it st else Ok (false, st)) = Ok (stop, st1) /\ Pr k st1 /\
        (stop = true -> stop_rule clk (dtpn st1) tol limit (dtio st1))).
    { destruct (_ || _).
      - unfold alsCP_DT_check. rewrite Hsq. destruct (measure_any V R clk (dtW st) (dtG st) (dtio st)) as (pn & dn & dt & x' & Em); auto.
        { fold o; lia. } { apply HG1. }
        fold o in Em. rewrite Em. cbn [bind]. match goal with |- context [stop_test _ _ _ _ ?y] => destruct (stop_any pn tol y) as (stop & x2 & Es & Hst) end.
        rewrite Es. eexists _, _. split; [reflexivity|]. split; [|exact Hst]. split; [auto|]. split; [auto|]. split; auto.
      - exists false, st. split; auto. split; [|discriminate]. split; auto. }
    destruct Hc' as (stop & st1 & -> & (HW2 & HG2 & HS2 & Hsq2) & Hstop). cbn [bind]. destruct stop.
    + exists Break, st1. split; auto. split; auto. split; auto. split; auto.
    + rewrite Hsq2. destruct (DT_sweep_any LA Hsh V R fuel parent sibling F regul (dtW st1) (dtG st1) (dtS st1)) as (W' & G' & S' & Es & H1 & H2 & H3); auto; try (fold o; lia).
      fold o in Es. rewrite Es. cbn [bind]. exists Go. eexists. split; [reflexivity|]. split; auto.
  - rewrite Nat.sub_0_r in E. rewrite E. cbn [bind]. exists (negb (0 + Z.of_nat k =? maxiter + 1)%Z), st, k. split; auto. unfold rounds in Hst.
    destruct f.
    + destruct Hst as [-> (H1 & H2 & _)]. split; auto. split; auto. split; [lia|].
      destruct (Z.eqb_spec (0 + Z.of_nat (0 + Z.to_nat (maxiter + 1 - 0))) (maxiter + 1)); [|lia]. cbn [negb]. lia.
    + destruct Hst as [Hk (_ & (H1 & H2 & _) & H3)]. split; auto. split; auto. split; [lia|].
      destruct (Z.eqb_spec (0 + Z.of_nat k) (maxiter + 1)); [lia|]. cbn [negb]. split; [lia|auto].
    + destruct Hst as [Hk (Hbad & _)]. discriminate.
Qed.

(** ** alsCP *)
Theorem alsCP_any W G F tol maxiter s x : (2 <= o <= 10)%nat -> lens V = repeat s o ->
  factors_ok V W R -> mats_ok V F R -> mats_ok V G R -> (0 <= maxiter)%Z ->
  exists ret st k, alsCP LA clk V W G F tol limit maxiter x = Ok (ret, st) /\
    factors_ok V (aW st) R /\ mats_ok V (aG st) R /\ (Z.of_nat k <= maxiter + 1)%Z /\
    (if ret then (Z.of_nat k <= maxiter)%Z /\ stop_rule clk (apn st) tol limit (aio st) else Z.of_nat k = (maxiter + 1)%Z).
Proof.
  intros Ho Hcube HW HF HG Hmax. unfold alsCP. fold o. unfold wtime. rewrite mk_seqV_ok. cbn [bind].
  destruct (W_get V R W 0 HW ltac:(lia)) as (-> & _ & Hc). cbn [bind]. rewrite Hc.
  set (x0 := set_st _ _). set (body := alsCP_iter _ _ _ _ _ _ _).
  set (Pr := fun (k : nat) st => factors_ok V (aW st) R /\ mats_ok V (aG st) R /\ sq_ok R (aS st) /\ aseq st = lbuf o).
  set (Qr := fun (f : flow) (k : nat) st => f = Break /\ Pr k st /\ stop_rule clk (apn st) tol limit (aio st)).
  destruct (for_iter_run Pr Qr body (rounds 0 maxiter) 0%nat 0%Z (mkAls W G (zeros [R; R]) (lbuf o) n0 n0 x0)) as (f & k & st & E & Hst).
  - split; [auto|]. split; [auto|]. split; [split; [reflexivity|apply tabulate_wf]|reflexivity].
  - intros k st Hk (HW1 & HG1 & HS1 & Hsq). subst body. unfold alsCP_iter. set (it := (0 + Z.of_nat (k - 0))%Z).
    assert (Hc' : exists stop st1, (if (Z.rem it 100 =? 0)%Z || (it =? maxiter)%Z
        then alsCP_check clk V F tol limit st else Ok (false, st)) = Ok (stop, st1) /\ Pr k st1 /\
        (stop = true -> stop_rule clk (apn st1) tol limit (aio st1))).
    { destruct (_ || _).
      - unfold alsCP_check. fold o. destruct (gradient_any V R (aW st) (aG st) s) as (G' & Eg & HG'); auto. rewrite Eg. cbn [bind].
        destruct (for_inv (fun i (acc : list (tensor N)) => length acc = i)
          (fun i acc => Wi <- lget (aW st) i ;; g <- lget G' i ;; f <- lget F i ;;
             p <- assign false (zeros [nrow Wi; ncol Wi]) sij [mkTerm n1 [(g, sij)]; mkTerm (nopp n1) [(f, sij)]] ;;
             Ok (acc ++ [p])) 0%nat o []) as (proj & Ep & Hproj).
        { lia. } { reflexivity. }
        { intros i acc Hi Hl. destruct (W_get V R (aW st) i HW1 ltac:(lia)) as (-> & Er & Ec). cbn [bind]. rewrite Er, Ec.
          destruct (M_get V R G' i HG' ltac:(lia)) as (-> & _ & _). cbn [bind].
          destruct (M_get V R F i HF ltac:(lia)) as (-> & _ & _). cbn [bind].
          assert (L1 : lens (fac G' i) = [nth i (lens V) 0%nat; R]) by (apply HG'; fold o; lia).
          assert (L2 : lens (fac F i) = [nth i (lens V) 0%nat; R]) by (apply HF; fold o; lia).
          assert (Ep : exists p, assign false (zeros [nth i (lens V) 0%nat; R]) sij [mkTerm n1 [(fac G' i, sij)]; mkTerm (nopp n1) [(fac F i, sij)]] = Ok p).
          { unfold assign, term_ok, lengths_ok, dims, order. cbn [length zeros lens tabulate sij forallb facs flat_map fst snd combine app consistent].
            rewrite L1, L2. unfold consistent. cbn. rewrite !Nat.eqb_refl. cbn. eauto. }
          destruct Ep as (p & Ep). rewrite Ep. cbn [bind]. eexists. split; [reflexivity|]. rewrite app_length, Hl. cbn. lia. }
        rewrite Ep. cbn [bind]. destruct (sumnorm_any V proj o Hproj) as (pn & Epn). rewrite Epn. cbn [bind].
        destruct (for_inv (fun (i : nat) (p : N) => True) (fun i a => f <- lget F i ;; Ok (nadd a (norm2 f))) 0%nat o n0) as (fn & Ef & _); auto; [lia| |].
        { intros i p Hi _. destruct (M_get V R F i HF ltac:(lia)) as (-> & _ & _). cbn [bind]. eauto. }
        rewrite Ef. cbn [bind]. destruct (stop_any pn tol (aio st)) as (stop & x2 & Es & Hst).
        rewrite Es. eexists _, _. split; [reflexivity|]. split; [|exact Hst]. split; [auto|]. split; [auto|]. split; auto.
      - exists false, st. split; auto. split; [|discriminate]. split; auto. }
    destruct Hc' as (stop & st1 & -> & (HW2 & HG2 & HS2 & Hsq2) & Hstop). cbn [bind]. destruct stop.
    + exists Break, st1. split; auto. split; auto. split; auto. split; auto.
    + rewrite Hsq2. destruct (alsCP_sweep_any LA Hsh V R F (aW st1) (aS st1) s) as (W' & S' & Es & H1 & H3); auto.
      fold o in Es. rewrite Es. cbn [bind]. fold o.
      assert (EN : exists W2, (if neqb (afn st1) n0 then Normalize W' o else Ok W') = Ok W2 /\ factors_ok V W2 R).
      { destruct (neqb (afn st1) n0); [|eauto]. apply (Normalize_any V R); auto. }
      destruct EN as (W2 & -> & HW3). cbn [bind]. exists Go. eexists. split; [reflexivity|]. split; auto.
  - rewrite Nat.sub_0_r in E. rewrite E. cbn [bind]. exists (negb (0 + Z.of_nat k =? maxiter + 1)%Z), st, k. split; auto. unfold rounds in Hst.
    destruct f.
    + destruct Hst as [-> (H1 & H2 & _)]. split; auto. split; auto. split; [lia|].
      destruct (Z.eqb_spec (0 + Z.of_nat (0 + Z.to_nat (maxiter + 1 - 0))) (maxiter + 1)); [|lia]. cbn [negb]. lia.
    + destruct Hst as [Hk (_ & (H1 & H2 & _) & H3)]. split; auto. split; auto. split; [lia|].
      destruct (Z.eqb_spec (0 + Z.of_nat k) (maxiter + 1)); [lia|]. cbn [negb]. split; [lia|auto].
    + destruct Hst as [Hk (Hbad & _)]. discriminate.
Qed.
End A.
