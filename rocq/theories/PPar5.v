(** alsCP_DT_sub, alsCP_PP_sub and alsCP_PP over an arbitrary number type: no failure, shapes kept. *)
From Coq Require Import List ZArith QArith Lia Bool Arith.
From Verif Require Import Base Num Tensor Spec Spec2 MCommon MCP PBase PTensor PSum PMat PMatAlg PSolve PTree PDT PDTSweep PALS PGrad PBuildV PDrivers
  PPP PPPSweep PPPDriver PPar PPar2 PPar3 PPar4.
Import ListNotations.
Local Close Scope Q_scope.

Section A.
Context {N : num} (LA : lapack N) (Hsh : svd_shaped (svd LA)).
Context (V : tensor N) (R : nat).
Let o := order V.
Notation RU := Unum_ring.
Notation U := (cp V).

Lemma zero_dW_any dW : mats_ok V dW R -> exists D, zero_dW o dW = Ok D /\ mats_ok V D R.
Proof.
  intros HD. destruct (osim_run _ _ _ _ (zero_dW_sim dW (map cp dW) o (mats_sim V R dW HD)) (zero_dW_ok RU ULA U R (map cp dW) (mats_cp V R dW HD)))
    as (D & E & HS). exists D. split; auto. apply (mats_back V R _ _ HS), zmats_mats.
Qed.
Lemma mk_dW_any W : factors_ok V W R -> exists D, mk_dW W o = Ok D /\ mats_ok V D R.
Proof.
  intros HW. destruct (osim_run _ _ _ _ (mk_dW_sim W (map cp W) o (mats_sim V R W (factors_mats' V R W HW))) (mk_dW_ok RU ULA U R (map cp W) (factors_cp V R W HW)))
    as (D & E & HS). exists D. split; auto. apply (mats_back V R _ _ HS), zmats_mats.
Qed.
Lemma dw_count_any t W dW : factors_ok V W R -> mats_ok V dW R -> exists c, dw_count o t W dW = Ok c.
Proof.
  intros HW HD. destruct (osim_run _ _ _ _ (dw_count_sim W (map cp W) dW (map cp dW) o t (tt : Unum) (mats_sim V R W (factors_mats' V R W HW)) (mats_sim V R dW HD))
    (dw_count_ok ULA U R tt (map cp W) (map cp dW) (factors_cp V R W HW) (mats_cp V R dW HD))) as (c & E & _). eauto.
Qed.
Lemma dw_update_any t W dW P : factors_ok V W R -> mats_ok V dW R -> mats_ok V P R ->
  exists D P' c, dw_update o t W dW P = Ok (D, P', c) /\ mats_ok V D R /\ mats_ok V P' R.
Proof.
  intros HW HD HP. destruct (osim_run _ _ _ _ (dw_update_sim o t (tt : Unum) W (map cp W) dW (map cp dW) P (map cp P) (mats_sim V R W (factors_mats' V R W HW)) (mats_sim V R dW HD) (mats_sim V R P HP))
    (dw_update_ok RU ULA U R tt (map cp W) (map cp dW) (map cp P) (factors_cp V R W HW) (mats_cp V R dW HD) (mats_cp V R P HP))) as ([[D P'] c] & E & [HS1 HS2] & _).
  cbn [fst snd] in *. exists D, P', c. split; auto. split; [apply (mats_back V R _ _ HS1), changed_mats, factors_mats, factors_cp; auto|
    apply (mats_back V R _ _ HS2), factors_mats, factors_cp; auto].
Qed.

Definition mpok (mp : smap (tensor N)) (W0 : list (tensor N)) : Prop := exists mp', msim mp mp' /\ pptab U R mp' (map cp W0).
Lemma build_operators_any same W : factors_ok V W R -> (3 <= o <= 9)%nat ->
  exists mp, build_operators same V W (lbuf o) = Ok mp /\ mpok mp W.
Proof.
  intros HW Ho. destruct (build_operators_tab RU U R ULA same (map cp W) (factors_cp V R W HW) Ho) as (mp' & E & Ht & _).
  destruct (osim_run _ _ _ _ (build_operators_sim same V U W (map cp W) (lbuf o) (factors_V V R W HW) (mats_sim V R W (factors_mats' V R W HW))) E) as (mp & E1 & HS).
  exists mp. split; auto. exists mp'. auto.
Qed.
Lemma PP_sweep_any mp W0 W G dW S (lambda ratio : N) regul : (2 <= o <= 31)%nat ->
  factors_ok V W0 R -> factors_ok V W R -> mats_ok V G R -> mats_ok V dW R -> sq_ok R S -> sq_ok R regul -> mpok mp W0 ->
  exists W' G' dW' S', PP_sweep LA V mp W0 lambda ratio regul (lbuf o) W G dW S (lbuf o) = Ok (W', G', dW', S', lbuf o) /\
    factors_ok V W' R /\ mats_ok V G' R /\ mats_ok V dW' R /\ sq_ok R S'.
Proof.
  intros Ho HW0 HW HG HD HS Hreg (mp' & Hm & Ht).
  assert (C0 := factors_cp V R W0 HW0). assert (C1 := factors_cp V R W HW). assert (C2 := mats_cp V R G HG). assert (C3 := mats_cp V R dW HD).
  destruct (PP_sweep_ok RU U R ULA ULA_shaped mp' (map cp W0) (map cp W) (map cp G) (map cp dW) (cp S) tt tt) as (S2 & E & HS2); auto.
  { apply HS. }
  destruct (osim_run _ _ _ _ (PP_sweep_sim LA Hsh V U mp mp' W0 (map cp W0) lambda (tt : Unum) ratio (tt : Unum) regul (mscal (tt : Unum) (mid R)) (lbuf o)
     W (map cp W) G (map cp G) dW (map cp dW) S (cp S) (lbuf o) (factors_V V R W HW) Hm (mats_sim V R W0 (factors_mats' V R W0 HW0)) (reg_sim R regul Hreg)
     (mats_sim V R W (factors_mats' V R W HW)) (mats_sim V R G HG) (mats_sim V R dW HD) (sq_sim R S HS)) E)
    as ([[[[W' G'] dW'] S'] s'] & E1 & [[[HW' HG'] HD'] HS'] & Hq). cbn [fst snd] in *. subst s'.
  exists W', G', dW', S'. split; [exact E1|].
  destruct (pp_sweep_ok_mats RU ULA U R ULA_shaped tt tt (map cp W0) (map cp W) (map cp dW) C0 C1 C3) as [H1 H2].
  assert (H3 := pp_grads_mats RU ULA U R ULA_shaped tt tt (map cp W0) (map cp W) (map cp dW) C0 C1 C3).
  unfold pp_sweep in H1, H2. change (order U) with o in H1, H2, HW', HD'.
  destruct (pp_upto (pinv_solve (svd ULA) R) tt tt U (map cp W0) R o (map cp W, map cp dW)) as [Wq Dq]. cbn [fst snd] in *.
  split; [apply (factors_back V R _ W _ HW HW' H1)|]. split; [apply (mats_back V R _ _ HG' H3)|]. split; [apply (mats_back V R _ _ HD' H2)|].
  apply (sq_back R S' _ HS' HS2).
Qed.
End A.

Section B.
Context {N : num} (LA : lapack N) (Hsh : svd_shaped (svd LA)) (clk : nat -> N) (rank0 : bool) (limit : N).
Context (V : tensor N) (R : nat).
Let o := order V.
Definition pany (p : pp_state (N:=N)) : Prop := factors_ok V (pW p) R /\ mats_ok V (pG p) R /\ mats_ok V (pdW p) R.

Theorem alsCP_DT_sub_any tol tol_init lambda maxiter resprint fuel iter p : (o = 4 \/ 6 <= o <= 19)%nat -> (o < fuel)%nat -> resprint <> 0%Z ->
  pany p -> exists iter' p', alsCP_DT_sub LA clk rank0 fuel V tol tol_init limit lambda maxiter resprint iter p = Ok (iter', p') /\ pany p'.
Proof.
  intros Ho Hf Hres Hp. unfold alsCP_DT_sub. fold o. assert (HW := proj1 Hp). destruct (W_get V R (pW p) 0 HW ltac:(fold o; lia)) as (-> & _ & Hc). cbn [bind]. rewrite Hc.
  destruct (mk_regul_any R lambda) as (regul & Er & HR). rewrite Er. cbn [bind].
  destruct (for_inv (fun j (D : list (tensor N)) => D = map (fun m => zeros [nth m (lens V) 0%nat; R]) (seq 0 j))
     (fun i acc => Wi <- lget (pW p) i ;; Ok (acc ++ [zeros [nrow Wi; ncol Wi]])) 0%nat o []) as (Wp & EWp & HWp).
  { lia. } { reflexivity. }
  { intros j D Hj ->. destruct (W_get V R (pW p) j HW ltac:(fold o; lia)) as (-> & E1 & E2). cbn [bind]. rewrite E1, E2. eexists; split; [reflexivity|].
    rewrite seq_S, map_app. reflexivity. }
  rewrite EWp. cbn [bind]. rewrite mk_seqV_ok. cbn [bind].
  destruct (tree_build o fuel) as (parent & sibling & Et & Htree); [lia|lia|]. rewrite Et. cbn [bind].
  set (body := DT_sub_iter _ _ _ _ _ _ _ _ _ _ _ _ _ _).
  destruct (for_iter_safe (fun s : sub_state => pany (bst s) /\ sq_ok R (bS s) /\ mats_ok V (bprev s) R /\ bseq s = lbuf o) body) with
    (n := rounds iter maxiter) (it := iter) (s := mkSub p (zeros [R; R]) Wp (lbuf o) sempty (n0 : N)) as (f & it' & s & E & Hs).
  - intros it s (Hpk & HS & HPk & Hsq). subst body. unfold DT_sub_iter, zmod.
    destruct (Z.eqb_spec resprint 0); [contradiction|]. cbn [bind].
    assert (Hc' : exists stop s1, (if (Z.rem it resprint =? 0)%Z || (it =? maxiter)%Z
        then DT_sub_check clk rank0 V tol limit it s else Ok (false, s)) = Ok (stop, s1) /\ pany (bst s1) /\ sq_ok R (bS s1) /\ mats_ok V (bprev s1) R /\ bseq s1 = lbuf o).
    { destruct (_ || _).
      - unfold DT_sub_check. rewrite Hsq. destruct Hpk as (P1 & P2 & P3).
        destruct (measure_any V R clk (pW (bst s)) (pG (bst s)) (pio (bst s))) as (pn & dn & dt & x' & Em); auto; [fold o; lia|apply P2|].
        fold o in Em. rewrite Em. cbn [bind]. destruct (stop_test _ _ _ _ _) as [stop x2]. eexists _, _. split; [reflexivity|].
        cbn [with_bst bst bS bprev bseq]. split; [split; [auto|split; auto]|auto].
      - exists false, s. auto. }
    destruct Hc' as (stop & s1 & -> & (P1 & P2 & P3) & HS1 & HP1 & Hsq1). cbn [bind]. destruct stop.
    + exists Break, s1. split; auto. split; [split; auto|auto].
    + rewrite Hsq1. destruct (DT_sub_sweep_any LA Hsh V R fuel parent sibling lambda regul (pW (bst s1)) (pG (bst s1)) (bS s1)) as (W' & G' & S' & Es & H1 & H2 & H3); auto; try (fold o; lia).
      fold o in Es. rewrite Es. cbn [bind]. fold o.
      destruct (dw_update_any V R tol_init W' (pdW (bst s1)) (bprev s1)) as (D & P' & c & Ed & HD & HP'); auto. fold o in Ed. rewrite Ed. cbn [bind].
      destruct (Nat.eqb c o); eexists _, _; (split; [reflexivity|]); cbn [bst bS bprev bseq]; (split; [split; [auto|split; auto]|auto]).
  - split; auto. split; [split; [reflexivity|apply tabulate_wf]|]. split; [|reflexivity]. cbn [bprev]. subst Wp. apply zmats_mats.
  - rewrite E. cbn [bind]. exists it', (bst s). split; auto. apply Hs.
Qed.

Theorem alsCP_PP_sub_any tol tol_init lambda ratio maxiter resprint same bench iter p : (3 <= o <= 9)%nat -> resprint <> 0%Z ->
  pany p -> exists iter' p', alsCP_PP_sub LA clk rank0 same V tol tol_init limit lambda ratio maxiter resprint bench iter p = Ok (iter', p') /\ pany p'.
Proof.
  intros Ho Hres Hp. unfold alsCP_PP_sub. fold o. assert (HW := proj1 Hp). destruct (W_get V R (pW p) 0 HW ltac:(fold o; lia)) as (-> & _ & Hc). cbn [bind]. rewrite Hc.
  destruct (mk_regul_any R lambda) as (regul & Er & HR). rewrite Er. cbn [bind]. rewrite mk_seqV_ok. cbn [bind].
  set (body := PP_sub_iter _ _ _ _ _ _ _ _ _ _ _ _ _ _ _ _).
  set (Pr := fun (k : nat) (s : sub_state (N:=N)) => pany (bst s) /\ sq_ok R (bS s) /\ bseq s = lbuf o /\ (k <> 0%nat -> factors_ok V (bprev s) R /\ mpok V R (bmp s) (bprev s))).
  destruct (for_iter_run Pr (fun _ _ s => pany (bst s)) body (rounds iter maxiter) 0%nat iter (mkSub p (zeros [R; R]) [] (lbuf o) sempty (n0 : N))) as (f & k & s & E & Hs).
  - split; auto. split; [split; [reflexivity|apply tabulate_wf]|]. split; [reflexivity|]. intros []; auto.
  - intros k s Hk (Hpk & HS & Hsq & Hb). subst body. rewrite Nat.sub_0_r. unfold PP_sub_iter. fold o.
    assert (Ec : exists c, (if bench then Ok 0%nat else dw_count o tol_init (pW (bst s)) (pdW (bst s))) = Ok c).
    { destruct bench; [eauto|]. apply (dw_count_any V R); apply Hpk. }
    destruct Ec as (c & ->). cbn [bind]. replace (iter + Z.of_nat k - iter)%Z with (Z.of_nat k) by lia.
    destruct (((Z.rem (Z.of_nat k) 15 =? 0)%Z || (0 <? c)%nat) && ((0 <? c)%nat || negb (iter + Z.of_nat k =? iter)%Z)) eqn:Ei.
    { exists Return, s. auto. }
    assert (Hs1 : exists s1, (if (Z.rem (Z.of_nat k) 15 =? 0)%Z || (0 <? c)%nat then
            let p := bst s in
            dW <- zero_dW o (pdW p) ;;
            mp <- build_operators same V (pW p) (lbuf o) ;;
            Ok (mkSub (mkPP (pW p) (pG p) dW (ppn p) (pio p)) (bS s) (pW p) (bseq s) mp (bdf s))
          else Ok s) = Ok s1 /\ pany (bst s1) /\ sq_ok R (bS s1) /\ bseq s1 = lbuf o /\ factors_ok V (bprev s1) R /\ mpok V R (bmp s1) (bprev s1)).
    { destruct (_ || _) eqn:Ea in Ei |- *.
      - destruct Hpk as (P1 & P2 & P3). destruct (zero_dW_any V R (pdW (bst s)) P3) as (D & Ez & HD). fold o in Ez. cbv zeta. rewrite Ez. cbn [bind].
        destruct (build_operators_any V R same (pW (bst s)) P1) as (mp & Em & Hmp); [auto|]. fold o in Em. rewrite Em. cbn [bind].
        eexists. split; [reflexivity|]. cbn [bst bS bseq bprev bmp]. split; [split; [auto|split; auto]|auto].
      - exists s. split; auto. split; auto. split; auto. split; auto. apply Hb. intros ->. cbn in Ea. discriminate. }
    destruct Hs1 as (s1 & Es1 & Hp1 & HS1 & Hsq1 & Hw1 & Hm1). cbv zeta in Es1 |- *. rewrite Es1. clear Es1. cbn [bind]. unfold zmod.
    destruct (Z.eqb_spec resprint 0); [contradiction|]. cbn [bind].
    assert (Hc' : exists stop s2, (if (Z.rem (iter + Z.of_nat k) resprint =? 0)%Z || (iter + Z.of_nat k =? maxiter)%Z || (iter + Z.of_nat k =? iter)%Z
        then PP_check clk rank0 V tol limit bench maxiter (iter + Z.of_nat k) s1 else Ok (false, s1)) = Ok (stop, s2) /\
        pany (bst s2) /\ sq_ok R (bS s2) /\ bseq s2 = lbuf o /\ factors_ok V (bprev s2) R /\ mpok V R (bmp s2) (bprev s2)).
    { destruct (_ || _ || _).
      - unfold PP_check. rewrite Hsq1. destruct Hp1 as (P1 & P2 & P3).
        destruct (measure_any V R clk (pW (bst s1)) (pG (bst s1)) (pio (bst s1))) as (pn & dn & dt & x' & Em); auto; [fold o; lia|apply P2|].
        fold o in Em. rewrite Em. cbn [bind]. match goal with |- context [let '(x, df) := ?e in _] => destruct e as [x1 df] end.
        destruct (stop_test _ _ _ _ _) as [stop x2]. eexists _, _. split; [reflexivity|]. cbn [bst bS bseq bprev bmp]. split; [split; [auto|split; auto]|auto].
      - exists false, s1. auto 8. }
    destruct Hc' as (stop & s2 & -> & Hp2 & HS2 & Hsq2 & Hw2 & Hm2). cbn [bind]. destruct stop; [exists Break, s2; auto|].
    destruct Hp2 as (P1 & P2 & P3). rewrite Hsq2.
    destruct (PP_sweep_any LA Hsh V R (bmp s2) (bprev s2) (pW (bst s2)) (pG (bst s2)) (pdW (bst s2)) (bS s2) lambda ratio regul) as (W' & G' & D' & S' & Es & H1 & H2 & H3 & H4); auto; [fold o; lia|].
    fold o in Es. rewrite Es. cbn [bind]. eexists Go, _. split; [reflexivity|]. split; [split; [auto|split; auto]|]. cbn [bS bseq bprev bmp]. auto.
  - rewrite E. cbn [bind]. eexists _, (bst s). split; [reflexivity|]. destruct f; [apply Hs|apply Hs|apply Hs].
Qed.

Lemma pp_while_any (P : pp_state (N:=N) -> Prop) dtsub sub tol maxiter bench :
  (forall i p, P p -> exists i' p', dtsub i p = Ok (i', p') /\ P p') -> (forall i p, P p -> exists i' p', sub i p = Ok (i', p') /\ P p') ->
  forall wf iter p, P p -> pp_while wf dtsub sub tol maxiter bench iter p = Err LoopFuel \/
    exists iter' p', pp_while wf dtsub sub tol maxiter bench iter p = Ok (iter', p') /\ P p'.
Proof.
  intros H1 H2. induction wf as [|wf IH]; intros iter p Hp; cbn [pp_while]; (destruct (_ && _); [|right; eauto]); auto.
  assert (Hd : exists i' p', (if bench then Ok (iter, p) else dtsub iter p) = Ok (i', p') /\ P p') by (destruct bench; eauto).
  destruct Hd as (i1 & p1 & -> & Hp1). cbn [bind]. destruct (H2 i1 p1 Hp1) as (i2 & p2 & -> & Hp2). cbn [bind]. apply IH; auto.
Qed.
Theorem alsCP_PP_any wf fuel same W G tol tol_init maxiter lambda ratio resprint (bench : bool) x :
  (if bench then 3 <= o <= 9 else o = 4 \/ 6 <= o <= 9)%nat -> (o < fuel)%nat -> resprint <> 0%Z ->
  factors_ok V W R -> mats_ok V G R ->
  alsCP_PP LA clk rank0 wf fuel same V W G tol tol_init limit maxiter lambda ratio resprint bench x = Err LoopFuel \/
  exists ret p, alsCP_PP LA clk rank0 wf fuel same V W G tol tol_init limit maxiter lambda ratio resprint bench x = Ok (ret, p) /\ pany p.
Proof.
  intros Ho Hf Hres HW HG. unfold alsCP_PP, wtime. fold o. destruct (mk_dW_any V R W HW) as (D & E & HD). fold o in E. rewrite E. cbn [bind].
  set (dts := if bench then (fun (i : Z) (p : pp_state (N:=N)) => Ok (i, p)) else alsCP_DT_sub LA clk rank0 fuel V tol tol_init limit lambda maxiter resprint).
  set (x0 := set_st _ _).
  assert (EW : forall wf i p, pp_while wf (alsCP_DT_sub LA clk rank0 fuel V tol tol_init limit lambda maxiter resprint)
       (alsCP_PP_sub LA clk rank0 same V tol tol_init limit lambda ratio maxiter resprint bench) tol maxiter bench i p =
     pp_while wf dts (alsCP_PP_sub LA clk rank0 same V tol tol_init limit lambda ratio maxiter resprint bench) tol maxiter bench i p).
  { subst dts. destruct bench; auto. clear. induction wf; intros; cbn [pp_while]; destruct (_ && _); auto. cbn [bind]. destruct (alsCP_PP_sub _ _ _ _ _ _ _ _ _ _ _ _ _ _ _) as [[i' p']|]; cbn [bind]; auto. }
  rewrite EW. destruct (pp_while_any pany dts (alsCP_PP_sub LA clk rank0 same V tol tol_init limit lambda ratio maxiter resprint bench) tol maxiter bench) with
    (wf := wf) (iter := 0%Z) (p := mkPP W G D (nlit 10) x0) as [Eq|(i' & p' & Eq & Hp')].
  - subst dts. intros i p Hp. destruct bench; [eauto|]. apply alsCP_DT_sub_any; auto. lia.
  - intros i p Hp. apply alsCP_PP_sub_any; auto. destruct bench; lia.
  - split; auto.
  - rewrite Eq. left. reflexivity.
  - rewrite Eq. cbn [bind]. right. eexists _, p'. split; [reflexivity|auto].
Qed.
End B.
