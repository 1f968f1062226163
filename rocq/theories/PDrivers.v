(** The drivers alsCP and alsCP_DT: total correctness *)
From Coq Require Import List ZArith QArith Lia Bool Arith Permutation Ring.
From Verif Require Import Base Num Tensor Spec MCommon MCP PBase PTensor PSum PMttkrp PMat PKhatri PGrad PMatAlg PSolve
  PBuildV PNormalize PTree PDT PDTSweep PALS.
Import ListNotations.
Local Close Scope Q_scope.

Lemma for_iter_run {St} (P : nat -> St -> Prop) (Q : flow -> nat -> St -> Prop) body : forall n k0 it s,
  P k0 s ->
  (forall k s, k0 <= k < k0 + n -> P k s -> exists f s', body (it + Z.of_nat (k - k0))%Z s = Ok (f, s') /\
     match f with Go => P (S k) s' | _ => Q f k s' end) ->
  exists f k s', for_iter n it body s = Ok (f, (it + Z.of_nat (k - k0))%Z, s') /\
     match f with Go => k = k0 + n /\ P k s' | _ => k0 <= k < k0 + n /\ Q f k s' end.
Proof.
  induction n; intros k0 it s HP Hb; cbn [for_iter].
  - exists Go, k0, s. rewrite Nat.sub_diag. cbn. rewrite Z.add_0_r. split; auto.
  - destruct (Hb k0 s) as (f & s' & E & Hf); auto; [lia|]. rewrite Nat.sub_diag in E. cbn in E. rewrite Z.add_0_r in E.
    rewrite E. cbn [bind]. destruct f.
    + destruct (IHn (S k0) (it + 1)%Z s') as (f & k & s2 & E2 & H2); auto.
      * intros k s0 Hk HP0. destruct (Hb k s0) as (f & s2 & E2 & H2); auto; [lia|].
        exists f, s2. rewrite <- E2. split; auto. f_equal. lia.
      * exists f, k, s2. rewrite E2. destruct f.
        -- destruct H2 as [-> H2]. split; [do 3 f_equal; lia|]. split; [lia|auto].
        -- destruct H2 as [Hk H2]. split; [do 3 f_equal; lia|]. split; [lia|auto].
        -- destruct H2 as [Hk H2]. split; [do 3 f_equal; lia|]. split; [lia|auto].
    + exists Break, k0, s'. rewrite Nat.sub_diag. cbn. rewrite Z.add_0_r. split; auto. split; [lia|auto].
    + exists Return, k0, s'. rewrite Nat.sub_diag. cbn. rewrite Z.add_0_r. split; auto. split; [lia|auto].
Qed.
Lemma mk_seqV_ok o : mk_seqV o = Ok (lbuf o).
Proof.
  unfold mk_seqV. destruct (bset (newbuf (o + 1)) o 0%Z) as [b|e] eqn:E.
  - cbn [bind]. apply fill_letters_lbuf with (1:=E).
  - rewrite bset_ok in E by (blen). discriminate.
Qed.
Lemma lbuf_take o : take o (lbuf o) = Ok (letters chr o).
Proof.
  unfold lbuf. apply take_list with (d:=0%Z).
  - unfold letters. rewrite map_length, seq_length. auto.
  - intros i Hi. rewrite nth_error_map, (nth_error_nth_some _ _ 0%Z).
    + cbn. do 2 f_equal. unfold letters. rewrite nth_app, map_length, seq_length. natcases; auto.
    + rewrite app_length, map_length, seq_length. simpl. lia.
Qed.

Section P.
Context {N : num} (RL : ring_laws N) (LA : lapack N).
Let RT : ring_theory (@n0 N) n1 nadd nmul nsub nopp (@eq N) := RL.
Add Ring NringD : RT.
Local Open Scope num_scope.
Context (clk : nat -> N) (rank0 : bool).

Lemma sumnorm_ok (G : list (tensor N)) o : length G = o -> sumnorm o G = Ok (grad_norm G).
Proof.
  intros HL. unfold sumnorm, grad_norm.
  destruct (for_inv (fun i (p : N) => p = bigsum (firstn i G) (fun g => norm2 g * norm2 g))
     (fun i p => g <- lget G i ;; Ok (p + norm2 g * norm2 g)) 0 o n0) as (p & E & Hp).
  - lia.
  - reflexivity.
  - intros i p Hi ->. rewrite (lget_ok G i tnil) by lia. cbn [bind]. eexists; split; [reflexivity|].
    rewrite (firstn_snoc_nth _ _ tnil) by lia. rewrite (bigsum_app RL). cbn. ring.
  - rewrite E. cbn [bind]. rewrite Hp. rewrite firstn_all2 by lia. auto.
Qed.
Lemma contracted_self (T : tensor N) s : contracted s [(T, s)] = [].
Proof.
  destruct (contracted s [(T, s)]) as [|c l] eqn:E; auto.
  assert (H : In c (contracted s [(T, s)])) by (rewrite E; left; auto).
  apply contracted_spec in H as [H1 H2]. cbn in H1. rewrite app_nil_r in H1. contradiction.
Qed.
Lemma diffnorm_ok (V : tensor N) W R : (2 <= order V <= 19)%nat -> factors_ok V W R ->
  diffnorm V W (lbuf (order V)) = Ok (resid_norm V W R).
Proof.
  intros Ho HW. assert (HWc := factors_cols V W R HW). destruct HW as (HwV & HL & HWm). unfold diffnorm, resid_norm.
  rewrite (build_V_ok RL W R (order V)); try lia; auto.
  2:{ intros m Hm. apply HWc. lia. }
  cbn [bind]. rewrite lbuf_take. cbn [bind].
  assert (El : lens (cp_full W R : tensor N) = lens V).
  { cbn. apply nth_ext with (d:=0%nat) (d':=0%nat). { rewrite map_length. auto. }
    rewrite map_length, HL. intros n Hn. rewrite (nth_map_lt _ _ _ tnil) by lia. fold (fac W n).
    apply (is_mat_nrow _ _ R). apply HWm; auto. }
  assert (Eo : order (cp_full W R : tensor N) = order V) by (unfold order; rewrite El; auto).
  rewrite Eo, lbuf_take. cbn [bind].
  set (sV := letters chr (order V)). set (d := dV (lens V) ch_star R).
  assert (Hlet : lens V = map d sV) by (apply (DT_letters V R); lia).
  assert (Hnd : NoDup sV) by (apply letters_nodup; apply (DT_inj V); lia).
  destruct (assign_rep d false V sV [mkTerm n1 [(V, sV)]; mkTerm (- n1) [(cp_full W R, sV)]]) as (B & E & HB); auto.
  { intros t [<-|[<-|[]]] p [<-|[]]; cbn [fst snd]; auto. rewrite El. auto. }
  rewrite E. cbn [bind]. f_equal. f_equal. destruct HB as (H1 & H2 & H3).
  apply tensor_ext; auto.
  - apply tabulate_wf.
  - rewrite H2. cbn. auto.
  - rewrite H2. intros idx Hidx. destruct (inb_env d sV idx) as (e & <- & He); auto.
    rewrite H3 by auto. unfold msub. rewrite at_tabulate by (rewrite Hlet; apply inb_map; auto).
    unfold tsval, tval. cbn [fold_left facs coef]. rewrite !contracted_self. cbn. ring.
Qed.

Lemma measure_ok (V : tensor N) W G R x : (2 <= order V <= 19)%nat -> factors_ok V W R -> length G = order V ->
  exists x' dt, measure clk V W G (lbuf (order V)) x = Ok (grad_norm G, resid_norm V W R, dt, x').
Proof.
  intros Ho HW HG. unfold measure, check_begin, wtime. rewrite sumnorm_ok by auto. cbn [bind].
  rewrite (diffnorm_ok V W R) by auto. cbn [bind]. unfold check_end, wtime. cbn. eauto.
Qed.

(** the stopping rule: the gradient norm is below tol, or the clock, read last, minus the (corrected)
    start time exceeds the limit *)
Definition stop_rule (pn tol limit : N) (x : io (N:=N)) : Prop :=
  nltb pn tol = true \/ nltb limit (clk (ck x - 1) - st_time x) = true.
Lemma stop_test_ok pn tol limit x stop x' : stop_test clk pn tol limit x = (stop, x') ->
  stop = true -> stop_rule pn tol limit x'.
Proof.
  unfold stop_test, wtime. destruct (nltb pn tol) eqn:E.
  - intros [= <- <-] _. left. auto.
  - intros [= <- <-] H. right. cbn. rewrite Nat.sub_0_r. auto.
Qed.

(** ** alsCP_DT *)
Theorem alsCP_DT_run (V : tensor N) (R : nat) W G F tol limit maxiter lambda resprint bench fuel x :
  (order V = 4 \/ 6 <= order V <= 19)%nat -> (order V < fuel)%nat ->
  svd_shaped (svd LA) -> factors_ok V W R -> mats_ok V F R -> mats_ok V G R ->
  (0 <= maxiter)%Z -> resprint <> 0%Z ->
  let step := fun W => rescaled (als_sweep (pinv_solve (svd LA) R) lambda V F R W) in
  exists ret st k,
    alsCP_DT LA clk rank0 fuel V W G F tol limit maxiter lambda resprint bench x = Ok (ret, st) /\
    (Z.of_nat k <= maxiter + 1)%Z /\ dtW st = Nat.iter k step W /\
    (ret = true -> (Z.of_nat k <= maxiter)%Z /\ stop_rule (dtpn st) tol limit (dtio st) /\ dtpn st = grad_norm (dtG st)) /\
    dtG st = match k with O => G | S k' => als_grads (pinv_solve (svd LA) R) lambda V F R (Nat.iter k' step W) end /\
    (ret = false -> Z.of_nat k = (maxiter + 1)%Z).
Proof.
  intros Ho Hf Hsh HW HF HG Hmax Hres step. set (o := order V) in *.
  assert (Ho31 : (1 <= o <= 31)%nat) by lia. assert (Hgood : (o = 4 \/ 6 <= o)%nat) by lia.
  unfold alsCP_DT. fold o. rewrite (W_lget LA V R W 0) by (auto; fold o; lia). cbn [bind].
  destruct (W_dims V R W 0 HW ltac:(fold o; lia)) as [_ Hc]. rewrite Hc.
  rewrite (mk_regul_ok RL). cbn [bind]. unfold wtime. rewrite mk_seqV_ok. cbn [bind].
  destruct (tree_build o fuel) as (parent & sibling & Et & Htree); [lia|lia|]. rewrite Et. cbn [bind].
  set (x0 := set_st _ _).
  set (body := alsCP_DT_iter _ _ _ _ _ _ _ _ _ _ _ _ _ _).
  set (Gk := fun k => match k with O => G | S k' => als_grads (pinv_solve (svd LA) R) lambda V F R (Nat.iter k' step W) end).
  set (Pr := fun k st => dtG st = Gk k /\ dtW st = Nat.iter k step W /\ factors_ok V (dtW st) R /\ mats_ok V (dtG st) R /\
                         lens (dtS st) = [R; R] /\ dtseq st = lbuf o).
  set (Qr := fun (f : flow) (k : nat) st => f = Break /\ dtG st = Gk k /\ dtW st = Nat.iter k step W /\ stop_rule (dtpn st) tol limit (dtio st)
                         /\ dtpn st = grad_norm (dtG st)).
  destruct (for_iter_run Pr Qr body (rounds 0 maxiter) 0%nat 0%Z (mkDt W G (zeros [R; R]) (lbuf o) n0 x0)) as (f & k & st & E & Hst).
  - unfold Pr. cbn. auto 10.
  - intros k st Hk (HG1 & HW1 & HW2 & HG2 & HS2 & Hsq). subst body. unfold alsCP_DT_iter, zmod.
    destruct (Z.eqb_spec resprint 0); [contradiction|]. cbn [bind].
    set (it := (0 + Z.of_nat (k - 0))%Z).
    assert (Hc' : exists stop st1, (if (Z.rem it resprint =? 0)%Z || (it =? maxiter)%Z
        then alsCP_DT_check clk rank0 V tol limit bench it st else Ok (false, st)) = Ok (stop, st1) /\
        dtW st1 = dtW st /\ dtG st1 = dtG st /\ dtS st1 = dtS st /\ dtseq st1 = dtseq st /\
        (stop = true -> stop_rule (dtpn st1) tol limit (dtio st1) /\ dtpn st1 = grad_norm (dtG st1))).
    { destruct (_ || _).
      - unfold alsCP_DT_check. rewrite Hsq. destruct (measure_ok V (dtW st) (dtG st) R (dtio st)) as (x' & dt & Em); auto.
        { fold o; lia. } { apply HG2. }
        fold o in Em. rewrite Em. cbn [bind]. set (x1 := if bench then _ else _). destruct (stop_test clk (grad_norm (dtG st)) tol limit x1) as [stop x2] eqn:Es.
        exists stop, (mkDt (dtW st) (dtG st) (dtS st) (lbuf o) (grad_norm (dtG st)) x2). cbn. repeat split; auto.
        eapply stop_test_ok; eauto.
      - exists false, st. repeat split; auto; discriminate. }
    destruct Hc' as (stop & st1 & -> & E1 & E2 & E3 & E4 & Hstop). cbn [bind]. destruct stop.
    + exists Break, st1. split; auto. split; auto. rewrite E1, E2. rewrite E2 in Hstop. destruct Hstop; auto.
    + rewrite E1, E2, E3, E4, Hsq.
      destruct (alsCP_DT_sweep_ok RL LA V R Hsh parent sibling fuel Htree Hgood Ho31 Hf F (dtG st) (dtW st) (dtS st) lambda) as (Sm' & Es & HS'); auto.
      fold o in Es. rewrite Es. cbn [bind]. eexists _, _. split; [reflexivity|]. unfold Pr. cbn [dtW dtG dtS dtseq].
      assert (Hs := sweep_factors RL LA V R Hsh lambda F (dtW st) HW2).
      split; [|split; [|split; [|split; [|split]]]]; auto.
      * rewrite HW1. reflexivity.
      * rewrite HW1. reflexivity.
      * destruct Hs as (Hs1 & Hs2 & Hs3). split; auto. unfold rescaled. split; [rewrite map_length; auto|].
        intros m Hm. unfold fac. rewrite (nth_map_lt _ _ _ tnil) by lia. apply mscal_mat, Hs3; auto.
      * unfold sweep_grads. split; [rewrite map_length, seq_length; auto|]. intros m Hm. fold o in Hm. unfold fac at 1.
        rewrite (nth_map_lt _ _ _ 0%nat) by (rewrite seq_length; auto). rewrite nth_seq by auto. cbn [Nat.add].
        apply msub_mat', (mmul_mat _ _ _ R R); [|apply lhs_mat]. apply (upto_factors RL LA V R Hsh lambda F (dtW st) m HW2); [fold o; lia|auto].
  - rewrite Nat.sub_0_r in E. rewrite E. cbn [bind]. exists (negb (0 + Z.of_nat k =? maxiter + 1)%Z), st, k.
    split; auto. unfold rounds in Hst.
    destruct f.
    + destruct Hst as [-> (HG1 & HW1 & _)]. split; [lia|]. split; auto.
      destruct (Z.eqb_spec (0 + Z.of_nat (0 + Z.to_nat (maxiter + 1 - 0))) (maxiter + 1)); [|lia]. cbn -[Nat.iter Nat.add]. split; [discriminate|]. split; [exact HG1|lia].
    + destruct Hst as [Hk (_ & HG1 & HW1 & Hs & Hp)]. split; [lia|]. split; auto.
      destruct (Z.eqb_spec (0 + Z.of_nat k) (maxiter + 1)); [lia|]. cbn -[Nat.iter]. split; [|split; [exact HG1|discriminate]]. intros _. split; [lia|auto].
    + destruct Hst as [Hk (Hbad & _)]. discriminate.
Qed.

(** ** alsCP *)
Theorem alsCP_run (V : tensor N) (R s : nat) W G F tol limit maxiter x :
  (2 <= order V <= 10)%nat -> lens V = repeat s (order V) ->
  svd_shaped (svd LA) -> factors_ok V W R -> mats_ok V F R -> mats_ok V G R -> (0 <= maxiter)%Z ->
  let Fnorm := bigsum F norm2 in
  let step := fun W => let W' := als_sweep (pinv_solve (svd LA) R) n0 V F R W in
                       if neqb Fnorm n0 then rescaled W' else W' in
  exists ret st k,
    alsCP LA clk V W G F tol limit maxiter x = Ok (ret, st) /\
    (Z.of_nat k <= maxiter + 1)%Z /\ aW st = Nat.iter k step W /\
    (ret = true -> (Z.of_nat k <= maxiter)%Z /\ stop_rule (apn st) tol limit (aio st) /\
        aG st = map (fun n => grad_spec V (aW st) R n) (seq 0 (order V)) /\
        apn st = grad_norm (map (fun n => msub (grad_spec V (aW st) R n) (fac F n)) (seq 0 (order V)))) /\
    (ret = false -> Z.of_nat k = (maxiter + 1)%Z).
Proof.
  intros Ho Hcube Hsh HW HF HG Hmax Fnorm step. set (o := order V) in *.
  unfold alsCP. fold o. unfold wtime. rewrite mk_seqV_ok. cbn [bind].
  rewrite (W_lget LA V R W 0) by (auto; fold o; lia). cbn [bind].
  destruct (W_dims V R W 0 HW ltac:(fold o; lia)) as [_ Hc]. rewrite Hc.
  set (x0 := set_st _ _).
  set (body := alsCP_iter _ _ _ _ _ _ _).
  set (Pr := fun k st => aW st = Nat.iter k step W /\ factors_ok V (aW st) R /\ mats_ok V (aG st) R /\
                         lens (aS st) = [R; R] /\ aseq st = lbuf o /\ (k <> 0%nat -> afn st = Fnorm)).
  set (Qr := fun (f : flow) (k : nat) st => f = Break /\ aW st = Nat.iter k step W /\ stop_rule (apn st) tol limit (aio st) /\
        aG st = map (fun n => grad_spec V (aW st) R n) (seq 0 o) /\
        apn st = grad_norm (map (fun n => msub (grad_spec V (aW st) R n) (fac F n)) (seq 0 o))).
  destruct (for_iter_run Pr Qr body (rounds 0 maxiter) 0%nat 0%Z (mkAls W G (zeros [R; R]) (lbuf o) n0 n0 x0)) as (f & k & st & E & Hst).
  - unfold Pr. cbn [aW aG aS aseq afn Nat.iter nat_rect]. split; [auto|]. split; [auto|]. split; [auto|]. split; [auto|]. split; [auto|]. intros []; auto.
  - intros k st Hk (HW1 & HW2 & HG2 & HS2 & Hsq & Hfn). subst body. unfold alsCP_iter.
    set (it := (0 + Z.of_nat (k - 0))%Z).
    assert (Hc' : exists stop st1, (if (Z.rem it 100 =? 0)%Z || (it =? maxiter)%Z
        then alsCP_check clk V F tol limit st else Ok (false, st)) = Ok (stop, st1) /\
        aW st1 = aW st /\ mats_ok V (aG st1) R /\ aS st1 = aS st /\ aseq st1 = aseq st /\ afn st1 = Fnorm /\
        (stop = true -> stop_rule (apn st1) tol limit (aio st1) /\
           aG st1 = map (fun n => grad_spec V (aW st1) R n) (seq 0 o) /\
           apn st1 = grad_norm (map (fun n => msub (grad_spec V (aW st1) R n) (fac F n)) (seq 0 o)))).
    { destruct (_ || _) eqn:Eor.
      - unfold alsCP_check. fold o.
        assert (Hn : forall m, (m < o)%nat -> nth m (lens V) 0%nat = s) by (intros; rewrite Hcube; apply nth_rep; auto).
        rewrite (gradient_CP_ok RL V (aW st) (aG st) R s); auto.
        2:{ apply HG2. }
        2:{ intros m Hm. destruct HG2 as [_ H]. rewrite <- (Hn m Hm). apply H; auto. }
        cbn [bind]. set (Gn := map (fun n => grad_spec V (aW st) R n) (seq 0 (order V))).
        change (map _ (seq 0 (order V))) with Gn.
        assert (HGn : mats_ok V Gn R).
        { split; [unfold Gn; rewrite map_length, seq_length; auto|]. intros m Hm. unfold Gn, fac.
          rewrite (nth_map_lt _ _ _ 0%nat) by (rewrite seq_length; auto). rewrite nth_seq by auto. cbn [Nat.add].
          apply msub_mat', (mmul_mat _ _ _ R R); [apply HW2; auto|apply hgram_mat]. }
        destruct (for_inv (fun i acc => acc = map (fun n => msub (grad_spec V (aW st) R n) (fac F n)) (seq 0 i))
          (fun i acc => Wi <- lget (aW st) i ;; g <- lget Gn i ;; f <- lget F i ;;
             p <- assign false (zeros [nrow Wi; ncol Wi]) sij [mkTerm n1 [(g, sij)]; mkTerm (- n1) [(f, sij)]] ;;
             Ok (acc ++ [p])) 0%nat o []) as (proj & Ep & Hproj).
        { lia. } { reflexivity. }
        { intros i acc Hi ->. rewrite (W_lget LA V R (aW st) i) by (auto; fold o; lia). cbn [bind].
          rewrite (F_lget LA V R Gn i) by (auto; fold o; lia). cbn [bind]. rewrite (F_lget LA V R F i) by (auto; fold o; lia). cbn [bind].
          destruct (W_dims V R (aW st) i HW2 ltac:(fold o; lia)) as [Er Ec]. rewrite Er, Ec.
          assert (HGi : is_mat (fac Gn i) (nth i (lens V) 0%nat) R) by (apply HGn; fold o; lia).
          assert (HFi : is_mat (fac F i) (nth i (lens V) 0%nat) R) by (apply HF; fold o; lia).
          rewrite (assign_lin RL _ _ _ _ _ (nth i (lens V) 0%nat) R); [|reflexivity|apply HGi|apply HFi]. cbn [bind].
          eexists; split; [reflexivity|]. rewrite seq_S, map_app. f_equal. cbn [map Nat.add]. f_equal.
          replace (grad_spec V (aW st) R i) with (fac Gn i).
          2:{ unfold Gn, fac. rewrite (nth_map_lt _ _ _ 0%nat) by (rewrite seq_length; fold o; lia). rewrite nth_seq by (fold o; lia). auto. }
          symmetry. apply mat_mk; [apply msub_mat'; auto|]. intros a b Ha Hb. rewrite (el_msub _ _ (nth i (lens V) 0%nat) R) by auto. ring. }
        rewrite Ep. cbn [bind]. rewrite sumnorm_ok by (rewrite Hproj, map_length, seq_length; auto). cbn [bind].
        destruct (for_inv (fun i (p : N) => p = bigsum (firstn i F) norm2)
          (fun i a => f <- lget F i ;; Ok (a + norm2 f)) 0%nat o n0) as (fn & Ef & Hfn').
        { lia. } { reflexivity. }
        { intros i p Hi ->. destruct HF as [HFl _]. fold o in HFl. rewrite (lget_ok F i tnil) by lia. cbn [bind]. eexists; split; [reflexivity|].
          rewrite (firstn_snoc_nth _ _ tnil) by lia. rewrite (bigsum_app RL). cbn. ring. }
        rewrite Ef. cbn [bind]. rewrite firstn_all2 in Hfn' by (destruct HF as [-> _]; auto).
        destruct (stop_test clk (grad_norm proj) tol limit (aio st)) as [stop x2] eqn:Es.
        exists stop, (mkAls (aW st) Gn (aS st) (aseq st) (grad_norm proj) fn x2).
        split; [reflexivity|]. cbn [aW aG aS aseq afn apn aio].
        split; [auto|]. split; [exact HGn|]. split; [auto|]. split; [auto|]. split; [exact Hfn'|].
        intros Hst. split; [eapply stop_test_ok; eauto|]. split; [reflexivity|]. rewrite Hproj. auto.
      - apply orb_false_iff in Eor as [Eor _].
        exists false, st. split; [auto|]. split; [auto|]. split; [exact HG2|]. split; [auto|]. split; [auto|].
        split; [|discriminate]. apply Hfn. intros ->. cbn in Eor. discriminate. }
    destruct Hc' as (stop & st1 & -> & E1 & HG1 & E3 & E4 & E5 & Hstop). cbn [bind]. destruct stop.
    + exists Break, st1. split; auto. split; auto. rewrite E1 in *. destruct Hstop as (? & ? & ?); auto.
    + rewrite E1, E3, E4, Hsq, E5. fold o.
      destruct (alsCP_sweep_ok RL LA V R Hsh F (aW st) (aS st) s) as (Sm' & E' & HS'); auto.
      fold o in E'. rewrite E'. cbn [bind].
      assert (Hs := sweep_factors RL LA V R Hsh n0 F (aW st) HW2).
      exists Go. set (W2 := als_sweep _ _ _ _ _ _) in *.
      assert (EN : (if neqb Fnorm n0 then Normalize W2 o else Ok W2) = Ok (if neqb Fnorm n0 then rescaled W2 else W2)).
      { destruct (neqb Fnorm n0); auto. apply (Normalize_rescaled RL V R); auto. }
      rewrite EN. cbn [bind]. eexists. split; [reflexivity|]. unfold Pr. cbn [aW aG aS aseq afn].
      split; [|split; [|split; [|split; [|split]]]]; auto.
      * subst W2. rewrite HW1. reflexivity.
      * destruct (neqb Fnorm n0); auto.
        destruct Hs as (Hs1 & Hs2 & Hs3). split; auto. unfold rescaled. split; [rewrite map_length; auto|].
        intros m Hm. unfold fac. rewrite (nth_map_lt _ _ _ tnil) by lia. apply mscal_mat, Hs3; auto.
  - rewrite Nat.sub_0_r in E. rewrite E. cbn [bind]. exists (negb (0 + Z.of_nat k =? maxiter + 1)%Z), st, k.
    split; auto. unfold rounds in Hst.
    destruct f.
    + destruct Hst as [-> (HW1 & _)]. split; [lia|]. split; auto.
      destruct (Z.eqb_spec (0 + Z.of_nat (0 + Z.to_nat (maxiter + 1 - 0))) (maxiter + 1)); [|lia]. cbn. split; [discriminate|lia].
    + destruct Hst as [Hk (_ & HW1 & Hs)]. split; [lia|]. split; auto.
      destruct (Z.eqb_spec (0 + Z.of_nat k) (maxiter + 1)); [lia|]. cbn. split; [|discriminate]. intros _. split; [lia|auto].
    + destruct Hst as [Hk (Hbad & _)]. discriminate.
Qed.
End P.
