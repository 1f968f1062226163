(** The drivers of als_Tucker.cxx over an arbitrary number type: no failure, shapes kept. *)
From Coq Require Import List ZArith QArith Lia Bool Arith.
From Verif Require Import Base Num Tensor Spec Spec2 Spec7 Spec8 Spec9 MCommon MCP MTucker PBase PTensor PMat PMatAlg PGrad PTree PDT PDTSweep PDrivers PTtm PTucker PHosvd PTDT PSign PTSweep
  PTDrivers PTPP PTPP2 PTPPDriver PPPDriver PPP PMttkrp PALS PPar PPar2 PPar3 PPar4 PPar5 PPar7 PPar8 PPar9.
Import ListNotations.
Local Close Scope Q_scope.

Section D.
Context {N : num} (LA : lapack N) (Hsvd : svd_trunc_shaped (svd LA)) (clk : nat -> N) (rank0 : bool) (limit : N).
Context (V : tensor N) (ranks : list nat) (HV : wf V).
Let o := order V.
Context (Ho : (2 <= o <= 10)%nat) (Hr : ranks_ok (lens V) ranks).
Local Lemma Ho2 : (2 <= order V <= 10)%nat. Proof. exact Ho. Qed.
Local Lemma Ho18' : (2 <= order V <= 18)%nat. Proof. fold o. lia. Qed.

Definition kany (k : tk_state (N:=N)) : Prop := tucker_ok V (kW k) ranks /\ lens (kcore k) = ranks /\ lens (kprev k) = ranks.

(** ** alsTucker *)
Theorem alsTucker_any core W tol maxiter x : tucker_ok V W ranks -> lens core = ranks -> (0 <= maxiter)%Z ->
  exists ret st k, alsTucker LA clk V core W tol limit maxiter x = Ok (ret, st) /\ kany st /\ (Z.of_nat k <= maxiter + 1)%Z /\
    (if ret then (Z.of_nat k <= maxiter)%Z /\ stop_rule clk (kdn st) tol limit (kio st) else Z.of_nat k = (maxiter + 1)%Z).
Proof.
  intros HW HC Hmax. unfold alsTucker. fold o. unfold wtime. rewrite mk_seqV_ok. cbn [bind].
  set (x0 := set_st _ _). set (body := alsTucker_iter _ _ _ _ _ _ _).
  set (Pr := fun (_ : nat) st => kany st).
  set (Qr := fun (f : flow) (k : nat) st => f = Break /\ Pr k st /\ stop_rule clk (kdn st) tol limit (kio st)).
  destruct (for_iter_run Pr Qr body (rounds 0 maxiter) 0%nat 0%Z (mkTk W core core [] n0 x0)) as (f & k & st & E & Hst).
  - split; auto.
  - intros k st Hk (H1 & H2 & H3). subst body. unfold alsTucker_iter. set (it := (0 + Z.of_nat (k - 0))%Z).
    assert (Hc' : exists stop st1, (if (Z.rem it 100 =? 0)%Z && negb (it =? 0)%Z || (it =? maxiter)%Z
        then alsTucker_check clk V tol limit (lbuf o) st else Ok (false, st)) = Ok (stop, st1) /\ kany st1 /\
        (stop = true -> stop_rule clk (kdn st1) tol limit (kio st1))).
    { destruct (_ || _).
      - unfold alsTucker_check, tk_stop. destruct (core_any V ranks HV Ho2 (kcore st) (kW st) H1) as (C & EC & HC'). rewrite EC. cbn [bind].
        assert (HCs := core_shp V ranks HV Ho2 C (kW st) H1 HC').
        match goal with |- context [stop_test _ ?p _ _ ?y] => destruct (stop_any clk limit p tol y) as (stop & x2 & Es & Hs) end. rewrite Es.
        destruct stop.
        + eexists _, _. split; [reflexivity|]. split; [split; [exact H1|split; [apply HCs|exact H3]]|exact Hs].
        + destruct (copy_any V ranks Ho2 Hr (kprev st) C H3 HCs) as (P & EP & HP). fold o in EP. rewrite EP. cbn [bind]. eexists _, _. split; [reflexivity|].
          split; [split; [exact H1|split; [apply HCs|apply HP]]|discriminate].
      - exists false, st. split; auto. split; [split; auto|discriminate]. }
    destruct Hc' as (stop & st1 & -> & (K1 & K2 & K3) & Hstop). cbn [bind]. destruct stop.
    + exists Break, st1. split; auto. split; auto. split; [split; auto|auto].
    + fold o. destruct (plain_sweep_any LA Hsvd V ranks HV Ho2 Hr (kcore st1) (kW st1) K2 K1) as (W' & Es & HW'). fold o in Es. rewrite Es. cbn [bind].
      exists Go. eexists. split; [reflexivity|]. split; auto.
  - rewrite Nat.sub_0_r in E. rewrite E. cbn [bind]. exists (negb (0 + Z.of_nat k =? maxiter + 1)%Z), st, k. split; auto. unfold rounds in Hst.
    destruct f.
    + destruct Hst as [-> H1]. split; auto. split; [lia|].
      destruct (Z.eqb_spec (0 + Z.of_nat (0 + Z.to_nat (maxiter + 1 - 0))) (maxiter + 1)); [|lia]. cbn [negb]. lia.
    + destruct Hst as [Hk (_ & H1 & H3)]. split; auto. split; [lia|].
      destruct (Z.eqb_spec (0 + Z.of_nat k) (maxiter + 1)); [lia|]. cbn [negb]. split; [lia|auto].
    + destruct Hst as [Hk (Hbad & _)]. discriminate.
Qed.

(** ** the check shared by the other drivers *)
Lemma DT_check_tk tol bench iter k : kany k ->
  exists stop k1, Tucker_DT_check clk rank0 V tol limit bench (lbuf o) iter k = Ok (stop, k1) /\ kany k1 /\ kdW k1 = kdW k /\
    (stop = true -> stop_rule clk (kdn k1) tol limit (kio k1)).
Proof.
  intros (H1 & H2 & H3). unfold Tucker_DT_check, tk_stop.
  destruct (tk_measure_any V ranks HV Ho2 clk (kcore k) (kprev k) (kW k) (kio k) H1) as (C & dn & dV & dt & x' & Em & HC). rewrite Em. cbn [bind].
  match goal with |- context [stop_test _ ?p _ _ ?y] => destruct (stop_any clk limit p tol y) as (stop & x2 & Es & Hs) end. rewrite Es.
  destruct stop.
  - eexists _, _. split; [reflexivity|]. split; [split; [exact H1|split; [apply HC|exact H3]]|split; [reflexivity|exact Hs]].
  - destruct (copy_any V ranks Ho2 Hr (kprev k) C H3 HC) as (P & EP & HP). fold o in EP. rewrite EP. cbn [bind]. eexists _, _. split; [reflexivity|].
    split; [split; [exact H1|split; [apply HC|apply HP]]|split; [reflexivity|discriminate]].
Qed.
Lemma checks_any iter maxiter resprint : resprint <> 0%Z -> exists c, tk_checks iter maxiter resprint = Ok c.
Proof. intros H. unfold tk_checks, zmod. destruct (Z.eqb_spec resprint 0); [contradiction|]. eexists; reflexivity. Qed.

(** ** alsTucker_DT *)
Theorem alsTucker_DT_any fuel core W tol maxiter resprint bench x : (o = 2 \/ o = 4 \/ 6 <= o)%nat -> (o < fuel)%nat ->
  tucker_ok V W ranks -> lens core = ranks -> (0 <= maxiter)%Z -> resprint <> 0%Z ->
  exists ret st k, alsTucker_DT LA clk rank0 fuel V core W tol limit maxiter resprint bench x = Ok (ret, st) /\ kany st /\ (Z.of_nat k <= maxiter + 1)%Z /\
    (if ret then (Z.of_nat k <= maxiter)%Z /\ stop_rule clk (kdn st) tol limit (kio st) else Z.of_nat k = (maxiter + 1)%Z).
Proof.
  intros Hg Hf HW HC Hmax Hres. unfold alsTucker_DT. fold o. unfold wtime. rewrite mk_seqV_ok. cbn [bind].
  destruct (tree_build o fuel) as (parent & sibling & Et & Htree); [lia|lia|]. rewrite Et. cbn [bind].
  destruct (mk_Yend_any V ranks HV Ho18' Hr W HW) as (Ye & EY & HY). rewrite EY. cbn [bind].
  assert (En := ncols_ranks V ranks Ho18' Hr W HW). fold o in En. rewrite En. cbn [bind].
  set (x0 := set_st _ _). set (body := Tucker_DT_iter _ _ _ _ _ _ _ _ _ _ _ _ _).
  set (Pr := fun (_ : nat) (st : tk_loop (N:=N)) => kany (lk st) /\ shp (lyend st) (YL V ranks) /\ llens st = ranks /\ lseqY st = lbuf o).
  set (Qr := fun (f : flow) (k : nat) st => f = Break /\ Pr k st /\ stop_rule clk (kdn (lk st)) tol limit (kio (lk st))).
  destruct (for_iter_run Pr Qr body (rounds 0 maxiter) 0%nat 0%Z (mkTL (mkTk W core core [] (nlit (1000 # 1)) x0) Ye ranks (lbuf o))) as (f & k & st & E & Hst).
  - split; [split; auto|]. auto.
  - intros k st Hk (Hk1 & H4 & H5 & H6). subst body. unfold Tucker_DT_iter. set (it := (0 + Z.of_nat (k - 0))%Z).
    destruct (checks_any it maxiter resprint Hres) as (c & ->). cbn [bind].
    assert (Hc' : exists stop k1, (if c then Tucker_DT_check clk rank0 V tol limit bench (lbuf o) it (lk st) else Ok (false, lk st)) = Ok (stop, k1) /\ kany k1 /\
        (stop = true -> stop_rule clk (kdn k1) tol limit (kio k1))).
    { destruct c.
      - destruct (DT_check_tk tol bench it (lk st) Hk1) as (stop & k1 & E & K & _ & Hs). eauto.
      - exists false, (lk st). split; auto. split; [auto|discriminate]. }
    destruct Hc' as (stop & k1 & -> & K & Hstop). cbn [bind]. destruct stop.
    + exists Break. eexists. split; [reflexivity|]. split; auto. split; [|auto]. split; [auto|]. auto.
    + rewrite H5, H6. destruct K as (K1 & K2 & K3).
      destruct (DT_sweep_tk LA Hsvd V ranks HV Ho18' Hr fuel parent sibling Hf Htree Hg (kcore k1) (kW k1) (lyend st) K2 K1 H4) as (C & W' & Y' & Es & L1 & L2 & L3).
      fold o in Es. rewrite Es. cbn [bind].
      exists Go. eexists. split; [reflexivity|]. split; [split; [exact L2|split; [apply L1|exact K3]]|]. auto.
  - rewrite Nat.sub_0_r in E. rewrite E. cbn [bind]. exists (negb (0 + Z.of_nat k =? maxiter + 1)%Z), (lk st), k. split; auto. unfold rounds in Hst.
    destruct f.
    + destruct Hst as [-> [H1 _]]. split; auto. split; [lia|].
      destruct (Z.eqb_spec (0 + Z.of_nat (0 + Z.to_nat (maxiter + 1 - 0))) (maxiter + 1)); [|lia]. cbn [negb]. lia.
    + destruct Hst as [Hk (_ & [H1 _] & H3)]. split; auto. split; [lia|].
      destruct (Z.eqb_spec (0 + Z.of_nat k) (maxiter + 1)); [lia|]. cbn [negb]. split; [lia|auto].
    + destruct Hst as [Hk (Hbad & _)]. discriminate.
Qed.

(** ** alsTucker_DT_sub *)
Definition tkany (k : tk_state (N:=N)) : Prop := kany k /\ dW_ok V ranks (kdW k).
Theorem alsTucker_DT_sub_any fuel tol ti maxiter resprint iter p : (o = 2 \/ o = 4 \/ 6 <= o)%nat -> (o < fuel)%nat -> resprint <> 0%Z -> tkany p ->
  exists iter' p', alsTucker_DT_sub LA clk rank0 fuel V tol ti limit maxiter resprint iter p = Ok (iter', p') /\ tkany p'.
Proof.
  intros Hg Hf Hres Hp. unfold alsTucker_DT_sub. fold o. assert (HW := proj1 (proj1 Hp)).
  destruct (for_inv (fun j (D : list (tensor N)) => D = map (fun m => zeros [nth m (lens V) 0%nat; nth m ranks 0%nat]) (seq 0 j))
     (fun i acc => Wi <- lget (kW p) i ;; Ok (acc ++ [zeros [nrow Wi; ncol Wi]])) 0%nat o []) as (Wp & EWp & HWp).
  { lia. } { reflexivity. }
  { intros j D Hj ->. destruct HW as (_ & LW & _ & HM). rewrite (lget_ok (kW p) j tnil) by (rewrite LW; fold o; lia). cbn [bind]. fold (fac (kW p) j).
    assert (X := HM j ltac:(fold o; lia)). rewrite (mat_nrow _ _ _ X), (mat_ncol _ _ _ X). eexists; split; [reflexivity|]. rewrite seq_S, map_app. reflexivity. }
  rewrite EWp. cbn [bind]. rewrite mk_seqV_ok. cbn [bind].
  destruct (tree_build o fuel) as (parent & sibling & Et & Htree); [lia|lia|]. rewrite Et. cbn [bind].
  destruct (mk_Yend_any V ranks HV Ho18' Hr (kW p) HW) as (Ye & EY & HY). rewrite EY. cbn [bind].
  set (body := Tucker_sub_iter _ _ _ _ _ _ _ _ _ _ _ _ _).
  destruct (for_iter_safe (fun s : tk_sub => tkany (sk s) /\ shp (syend s) (YL V ranks) /\ sseqY s = lbuf o /\ dW_ok V ranks (sprevW s)) body) with
    (n := rounds iter maxiter) (it := iter) (s := mkTS p Ye (lbuf o) Wp sempty (n0 : N)) as (f & it' & s & E & Hs).
  - intros it s ([Hk HD] & HYs & Hsq & HP). subst body. unfold Tucker_sub_iter. destruct (checks_any it maxiter resprint Hres) as (c & ->). cbn [bind].
    assert (Hc' : exists stop k1, (if c then Tucker_DT_check clk rank0 V tol limit false (lbuf o) it (sk s) else Ok (false, sk s)) = Ok (stop, k1) /\ kany k1 /\ dW_ok V ranks (kdW k1)).
    { destruct c.
      - destruct (DT_check_tk tol false it (sk s) Hk) as (stop & k1 & E & K & ED & _). exists stop, k1. rewrite ED. auto.
      - exists false, (sk s). auto. }
    destruct Hc' as (stop & k1 & -> & (K1 & K2 & K3) & KD). cbn [bind]. destruct stop.
    + exists Break. eexists. split; [reflexivity|]. split; [split; [split; auto|auto]|auto].
    + rewrite Hsq.
      destruct (sub_sweep_tk LA Hsvd V ranks HV Ho18' Hr fuel parent sibling Hf Htree Hg (kcore k1) (sprevW s) (kW k1) (syend s) K2 K1 HP HYs) as (C & W' & Y' & Es & L1 & L2 & L3).
      fold o in Es. rewrite Es. cbn [bind]. fold o.
      destruct (tdw_update_any V ranks Ho2 ti W' (kdW k1) (sprevW s)) as (D & P' & c' & Ed & HD' & HP'); auto. { apply tk_dw; auto. }
      fold o in Ed. rewrite Ed. cbn [bind]. assert (HT : tkany (mkTk W' C (kprev k1) D (kdn k1) (kio k1))) by (split; [split; [exact L2|split; [apply L1|exact K3]]|exact HD']).
      destruct (Nat.eqb c' o); eexists _, _; (split; [reflexivity|]); cbn [sk syend sseqY sprevW]; auto.
  - split; auto. split; [exact HY|]. split; [reflexivity|]. cbn [sprevW]. rewrite HWp. apply zfacs_ok.
  - rewrite E. cbn [bind]. exists it', (sk s). split; auto. apply Hs.
Qed.

(** ** alsTucker_PP_sub *)
Lemma PP_check_tk tol bench maxiter iter s : kany (sk s) ->
  exists stop s1, Tucker_PP_check clk rank0 V tol limit bench maxiter (lbuf o) iter s = Ok (stop, s1) /\ kany (sk s1) /\ kdW (sk s1) = kdW (sk s) /\
    syend s1 = syend s /\ sseqY s1 = sseqY s /\ sprevW s1 = sprevW s /\ smp s1 = smp s.
Proof.
  intros (H1 & H2 & H3). unfold Tucker_PP_check, tk_stop.
  destruct (tk_measure_any V ranks HV Ho2 clk (kcore (sk s)) (kprev (sk s)) (kW (sk s)) (kio (sk s)) H1) as (C & dn & dV & dt & x' & Em & HC). rewrite Em. cbn [bind].
  match goal with |- context [let '(x, df) := ?e in _] => destruct e as [x1 df] end.
  destruct (stop_test _ _ _ _ _) as [stop x2]. destruct (stop || _).
  - eexists _, _. split; [reflexivity|]. split; [split; [exact H1|split; [apply HC|exact H3]]|auto 8].
  - destruct (copy_any V ranks Ho2 Hr (kprev (sk s)) C H3 HC) as (P & EP & HP). fold o in EP. rewrite EP. cbn [bind]. eexists _, _. split; [reflexivity|].
    split; [split; [exact H1|split; [apply HC|apply HP]]|auto 8].
Qed.
Theorem alsTucker_PP_sub_any tol ti maxiter resprint bench iter p : (3 <= o <= 9)%nat -> resprint <> 0%Z -> tkany p ->
  exists iter' p', alsTucker_PP_sub LA clk rank0 V tol ti limit maxiter resprint bench iter p = Ok (iter', p') /\ tkany p'.
Proof.
  intros H9 Hres Hp. unfold alsTucker_PP_sub. fold o. assert (HW := proj1 (proj1 Hp)). rewrite mk_seqV_ok. cbn [bind].
  destruct (mk_Yend_any V ranks HV Ho18' Hr (kW p) HW) as (Ye & EY & HY). rewrite EY. cbn [bind].
  set (body := Tucker_PP_iter _ _ _ _ _ _ _ _ _ _ _ _).
  set (Pr := fun (k : nat) (s : tk_sub (N:=N)) => tkany (sk s) /\ shp (syend s) (YL V ranks) /\ sseqY s = lbuf o /\
     (k <> 0%nat -> tucker_ok V (sprevW s) ranks /\ opsany V (sprevW s) (smp s))).
  destruct (for_iter_run Pr (fun _ _ s => tkany (sk s)) body (rounds iter maxiter) 0%nat iter (mkTS p Ye (lbuf o) [] sempty (n0 : N))) as (f & k & s & E & Hs).
  - split; auto. split; [exact HY|]. split; [reflexivity|]. intros []; auto.
  - intros k s Hk (Hp0 & HYs & Hsq & Hb). subst body. rewrite Nat.sub_0_r. unfold Tucker_PP_iter. fold o.
    assert (Ec : exists c, (if bench then Ok 0%nat else dw_count o ti (kW (sk s)) (kdW (sk s))) = Ok c).
    { destruct bench; [eauto|]. apply (tdw_count_any V ranks Ho2); [apply tk_dw, Hp0|apply Hp0]. }
    destruct Ec as (c & ->). cbn [bind]. destruct (0 <? c)%nat. { exists Return, s. auto. }
    assert (Hs1 : exists s1, (if Z.eqb (iter + Z.of_nat k) iter then
            let k := sk s in
            dW <- mk_dW (kW k) o ;;
            mp <- build_ttmc_operators V (kW k) (lbuf o) ;;
            Ok (mkTS (mkTk (kW k) (kcore k) (kprev k) dW (kdn k) (kio k)) (syend s) (sseqY s) (kW k) mp (sfirst s))
          else Ok s) = Ok s1 /\ tkany (sk s1) /\ shp (syend s1) (YL V ranks) /\ sseqY s1 = lbuf o /\ tucker_ok V (sprevW s1) ranks /\ opsany V (sprevW s1) (smp s1)).
    { destruct (Z.eqb_spec (iter + Z.of_nat k) iter) as [Ez|Ez].
      - destruct Hp0 as [(P1 & P2 & P3) _]. cbv zeta. destruct (tmk_dW_any V ranks HV Ho2 (kW (sk s)) P1) as (D & ED & HD). fold o in ED. rewrite ED. cbn [bind].
        destruct (ops_any V ranks HV Ho18' (kW (sk s)) H9 P1) as (mp & Em & Hmp). fold o in Em. rewrite Em. cbn [bind].
        eexists. split; [reflexivity|]. cbn [sk syend sseqY sprevW smp]. split; [split; [split; auto|auto]|auto].
      - exists s. split; auto. split; auto. split; auto. split; auto. apply Hb. lia. }
    destruct Hs1 as (s1 & Es1 & [Hk1 HD1] & HY1 & Hsq1 & Hw1 & Hm1). cbv zeta in Es1 |- *. rewrite Es1. clear Es1. cbn [bind].
    destruct (checks_any (iter + Z.of_nat k) maxiter resprint Hres) as (ch & ->). cbn [bind].
    assert (Hc' : exists stop s2, (if ch || (iter + Z.of_nat k =? iter)%Z
        then Tucker_PP_check clk rank0 V tol limit bench maxiter (lbuf o) (iter + Z.of_nat k) s1 else Ok (false, s1)) = Ok (stop, s2) /\
        tkany (sk s2) /\ shp (syend s2) (YL V ranks) /\ sseqY s2 = lbuf o /\ tucker_ok V (sprevW s2) ranks /\ opsany V (sprevW s2) (smp s2)).
    { destruct (_ || _).
      - destruct (PP_check_tk tol bench maxiter (iter + Z.of_nat k) s1 Hk1) as (stop & s2 & E & K & ED & E1 & E2 & E3 & E4).
        exists stop, s2. rewrite E1, E2, E3, E4. split; [exact E|]. split; [split; [exact K|rewrite ED; exact HD1]|auto].
      - exists false, s1. split; auto. split; [split; auto|auto]. }
    destruct Hc' as (stop & s2 & -> & Hp2 & HY2 & Hsq2 & Hw2 & Hm2). cbn [bind]. destruct stop; [exists Break, s2; auto|].
    destruct Hp2 as [(P1 & P2 & P3) P4]. cbv zeta. rewrite Hsq2.
    destruct (PP_sweep_tk LA Hsvd V ranks HV Ho18' Hr (kcore (sk s2)) (smp s2) (sprevW s2) (kW (sk s2)) (kdW (sk s2)) (syend s2) P2 Hw2 P1 P4 Hm2 HY2) as (C & W' & D' & Y' & Es & L1 & L2 & L3 & L4).
    fold o in Es. rewrite Es. cbn [bind]. eexists Go, _. split; [reflexivity|].
    split; [split; [split; [exact L2|split; [apply L1|exact P3]]|exact L3]|]. cbn [syend sseqY sprevW smp]. auto.
  - rewrite E. cbn [bind]. eexists _, (sk s). split; [reflexivity|]. destruct f; [apply Hs|apply Hs|apply Hs].
Qed.

(** ** alsTucker_PP *)
Lemma tk_while_any (P : tk_state (N:=N) -> Prop) dtsub sub tol maxiter bench :
  (forall t i p, P p -> exists i' p', dtsub t i p = Ok (i', p') /\ P p') -> (forall t i p, P p -> exists i' p', sub t i p = Ok (i', p') /\ P p') ->
  forall wf t iter p, P p -> tk_while wf dtsub sub tol maxiter bench t iter p = Err LoopFuel \/
    exists iter' p', tk_while wf dtsub sub tol maxiter bench t iter p = Ok (iter', p') /\ P p'.
Proof.
  intros H1 H2. induction wf as [|wf IH]; intros t iter p Hp; cbn [tk_while]; (destruct (_ && _); [|right; eauto]); auto.
  assert (Hd : exists i' p', (if bench then Ok (iter, p) else dtsub t iter p) = Ok (i', p') /\ P p') by (destruct bench; eauto).
  destruct Hd as (i1 & p1 & -> & Hp1). cbn [bind]. destruct (H2 t i1 p1 Hp1) as (i2 & p2 & -> & Hp2). cbn [bind]. cbv zeta. apply IH; auto.
Qed.
Theorem alsTucker_PP_any wf fuel core W tol ti maxiter resprint (bench : bool) x :
  (if bench then 3 <= o <= 9 else o = 4 \/ 6 <= o <= 9)%nat -> (o < fuel)%nat -> resprint <> 0%Z ->
  tucker_ok V W ranks -> lens core = ranks ->
  alsTucker_PP LA clk rank0 wf fuel V core W tol ti limit maxiter resprint bench x = Err LoopFuel \/
  exists ret p, alsTucker_PP LA clk rank0 wf fuel V core W tol ti limit maxiter resprint bench x = Ok (ret, p) /\ tkany p.
Proof.
  intros Hd Hf Hres HW HC. unfold alsTucker_PP, wtime. fold o. destruct (tmk_dW_any V ranks HV Ho2 W HW) as (D & E & HD). fold o in E. rewrite E. cbn [bind].
  set (dts := if bench then (fun (_ : N) (i : Z) (p : tk_state (N:=N)) => Ok (i, p)) else (fun t => alsTucker_DT_sub LA clk rank0 fuel V tol t limit maxiter resprint)).
  set (x0 := set_st _ _). set (sub := fun t => alsTucker_PP_sub LA clk rank0 V tol t limit maxiter resprint bench).
  assert (EW : forall wf t i p, tk_while wf (fun t => alsTucker_DT_sub LA clk rank0 fuel V tol t limit maxiter resprint) sub tol maxiter bench t i p =
     tk_while wf dts sub tol maxiter bench t i p).
  { subst dts. destruct bench; auto. clear. induction wf; intros; cbn [tk_while]; destruct (_ && _); auto. cbn [bind]. destruct (sub _ _ _) as [[i' p']|]; cbn [bind]; auto. }
  rewrite EW. destruct (tk_while_any tkany dts sub tol maxiter bench) with
    (wf := wf) (t := ti) (iter := 0%Z) (p := mkTk W core core D (nlit (10 # 1)) x0) as [Eq|(i' & p' & Eq & Hp')].
  - subst dts. intros t i p Hp. destruct bench; [eauto|]. apply alsTucker_DT_sub_any; auto. lia.
  - intros t i p Hp. apply alsTucker_PP_sub_any; auto. destruct bench; lia.
  - split; [split; auto|auto].
  - rewrite Eq. left. reflexivity.
  - rewrite Eq. cbn [bind]. right. eexists _, p'. split; [reflexivity|auto].
Qed.
End D.
