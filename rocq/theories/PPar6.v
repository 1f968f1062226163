(** alsCP_PP_partupdate over an arbitrary number type: no failure, shapes kept. *)
From Coq Require Import List ZArith QArith Lia Bool Arith Permutation.
From Verif Require Import Base Num Tensor Spec Spec2 MCommon MCP PBase PTensor PSum PMat PMatAlg PSolve PTree PDT PDTSweep PALS PGrad PBuildV PDrivers
  PPP PPPSweep PPPDriver PPU PropSort PPar PPar2 PPar3 PPar4 PPar5.
Import ListNotations.
Local Close Scope Q_scope.

Section A.
Context {N : num} (LA : lapack N) (Hsh : svd_shaped (svd LA)).
Notation T1 := (tensor N).
Notation T2 := (tensor Unum).
Definition puR (a : pu_state (N:=N)) (b : pu_state (N:=Unum)) : Prop :=
  lsim (uW a) (uW b) /\ lsim (uG a) (uG b) /\ lsim (udW a) (udW b) /\ lsim (uM a) (uM b) /\ lsim (udM a) (udM b) /\ tsw (uS a) (uS b) /\ useq a = useq b.
Lemma pu_propagate_sim (V : T1) (V' : T2) mp mp' sq D D' i M M' : tsw V V' -> msim mp mp' -> lsim D D' -> lsim M M' ->
  osim lsim (pu_propagate V mp sq D i M) (pu_propagate V' mp' sq D' i M').
Proof.
  intros HV Hm HD HM. unfold pu_propagate. rewrite (tsw_order _ _ HV). repeat pleaf. apply (osim_bind lsim).
  - apply for_sim; auto. intros j A B _ HAB. repeat pleaf.
  - intros A B HAB. apply for_sim; auto. intros j A' B' _ HAB'. repeat pleaf.
Qed.
Lemma PU_mode_sim (V : T1) (V' : T2) mp mp' W0 W0' l l' r r' regul regul' sq i a b : tsw V V' -> msim mp mp' -> lsim W0 W0' -> tsw regul regul' -> puR a b ->
  osim puR (PU_mode LA V mp W0 l r regul sq i a) (PU_mode ULA V' mp' W0' l' r' regul' sq i b).
Proof.
  intros HV Hm HW0 HR. destruct a as [W G D M dM S sa], b as [W' G' D' M' dM' S' sb]. intros (HW & HG & HD & HM & HdM & HS & Hq).
  cbn [uW uG udW uM udM uS useq] in *. subst sb.
  unfold PU_mode. cbn [uW uG udW uM udM uS useq]. rewrite (tsw_order _ _ HV), (tsw_lens _ _ HV). repeat pleaf.
  match goal with p : (buf nat * buf nat)%type |- _ => destruct p as [index lH] end. repeat pleaf.
  eapply osim_bind; [apply gram_index_sim; eauto|]. intros Sa Sb HSa.
  eapply osim_bind; [apply add_regul_sim; eauto|]. intros Sc Sd HSc. repeat pleaf.
  eapply osim_bind; [apply gradsubprob_sim; eauto|]. intros g g' Hg. repeat pleaf.
  eapply osim_bind; [apply SVD_solve_mod_sim; eauto|]. intros [A Da] [A' Db] [HA HDa]; cbn [fst snd] in *. repeat pleaf.
  eapply osim_bind; [apply pu_propagate_sim; eauto|]. intros dMa dMb HdM2. repeat pleaf.
  apply osim_ok. unfold puR; cbn [uW uG udW uM udM uS useq]. split; [|split; [|split; [|split; [|split; [|split]]]]]; auto.
Qed.

Context (V : tensor N) (R : nat).
Let o := order V.
Notation RU := Unum_ring.
Notation U := (cp V).
Definition puany (st : pu_state (N:=N)) : Prop :=
  factors_ok V (uW st) R /\ mats_ok V (uG st) R /\ mats_ok V (udW st) R /\ mats_ok V (uM st) R /\ mats_ok V (udM st) R /\ sq_ok R (uS st) /\ useq st = lbuf o.
Lemma PU_mode_any mp W0 st (lambda ratio : N) regul i : (2 <= o <= 31)%nat -> (i < o)%nat ->
  factors_ok V W0 R -> sq_ok R regul -> mpok V R mp W0 -> puany st ->
  exists st', PU_mode LA V mp W0 lambda ratio regul (lbuf o) i st = Ok st' /\ puany st'.
Proof.
  intros Ho Hi HW0 Hreg (mp' & Hm & Ht) (H1 & H2 & H3 & H4 & H5 & H6 & H7).
  set (st0 := mkPu (N:=Unum) (map cp (uW st)) (map cp (udW st)) (map cp (udM st)) (map cp (uM st)) (map cp (uG st))).
  assert (Hst0 : pu_ok U R st0).
  { unfold pu_ok, st0. cbn [suW sudW sudM suM suG]. split; [apply (factors_cp V R); auto|]. repeat (split; [apply (mats_cp V R); auto|]). apply (mats_cp V R); auto. }
  assert (C0 := factors_cp V R W0 HW0).
  assert (E := PU_mode_ok RU ULA U R ULA_shaped mp' (map cp W0) st0 (cp (uS st)) tt tt i Ho Hi (fun _ => eq_refl) (fun _ => eq_refl) C0 Hst0 (proj1 H6) Ht).
  assert (Hok := pu_update_ok RU ULA U R ULA_shaped tt tt (map cp W0) st0 i C0 Hst0 Hi).
  destruct (osim_run _ _ _ _ (PU_mode_sim V U mp mp' W0 (map cp W0) lambda (tt : Unum) ratio (tt : Unum) regul (mscal (tt : Unum) (mid R)) (lbuf o) i st (of_pu U st0 (cp (uS st)))
     (factors_V V R W0 HW0) Hm (mats_sim V R W0 (factors_mats' V R W0 HW0)) (reg_sim R regul Hreg) (conj (mats_sim V R _ (factors_mats' V R _ H1))
       (conj (mats_sim V R _ H2) (conj (mats_sim V R _ H3) (conj (mats_sim V R _ H4) (conj (mats_sim V R _ H5) (conj (sq_sim R _ H6) H7))))))) E) as (st' & E1 & HS).
  exists st'. split; [exact E1|]. clear E E1. set (q := pu_update _ _ _ _ _ _ _ _) in *. clearbody q. destruct HS as (S1 & S2 & S3 & S4 & S5 & S6 & S7).
  unfold of_pu in S1, S2, S3, S4, S5, S6, S7. cbn [uW uG udW uM udM uS useq] in *. destruct Hok as (Q1 & Q2 & Q3 & Q4 & Q5).
  split; [apply (factors_back V R _ (uW st) _ H1 S1 Q1)|]. split; [apply (mats_back V R _ _ S2 Q5)|]. split; [apply (mats_back V R _ _ S3 Q2)|].
  split; [apply (mats_back V R _ _ S4 Q4)|]. split; [apply (mats_back V R _ _ S5 Q3)|]. split; [|exact S7]. apply (sq_back R _ _ S6). apply lhs_mat.
Qed.
Lemma PU_sweep_any mp W0 st (lambda ratio : N) regul size rel : (2 <= o <= 31)%nat -> (size <= o)%nat -> length rel = o ->
  factors_ok V W0 R -> sq_ok R regul -> mpok V R mp W0 -> puany st ->
  exists rel' st', PU_sweep LA V mp W0 lambda ratio regul (lbuf o) size rel st = Ok (rel', st') /\ puany st' /\ length rel' = o.
Proof.
  intros Ho Hsz Hrel HW0 Hreg Hm Hst. unfold PU_sweep. fold o.
  assert (Hperm : Permutation (sort_indexes rel) (seq 0 o)) by (rewrite <- Hrel; apply insertion_sort_perm).
  set (srt := sort_indexes rel) in *. clearbody srt.
  assert (Hlen : length srt = o) by (rewrite (Permutation_length Hperm), seq_length; auto).
  destruct (for_inv (fun k st => puany st) (fun k st => i <- lget srt k ;; PU_mode LA V mp W0 lambda ratio regul (lbuf o) i st) 0%nat size st) as (st1 & E1 & H1).
  - lia.
  - auto.
  - intros k s Hk Hs. rewrite (lget_ok srt k 0%nat) by lia. cbn [bind]. apply PU_mode_any; auto.
    assert (Hin : In (nth k srt 0%nat) (seq 0 o)) by (apply (Permutation_in _ Hperm), nth_In; lia). apply in_seq in Hin. lia.
  - rewrite E1. cbn [bind]. destruct H1 as (H1 & H2 & H3 & H4 & H5 & H6 & H7).
    destruct (for_inv (fun k (r : list N) => length r = o) (fun i rel => d <- lget (udM st1) i ;; m <- lget (uM st1) i ;; lput rel i (ndiv (norm2 d) (norm2 m))) 0%nat o rel) as (r & Er & Hr); auto.
    + lia.
    + intros k r Hk Hr. destruct (M_get V R (udM st1) k H5 ltac:(fold o; lia)) as (-> & _). cbn [bind]. destruct (M_get V R (uM st1) k H4 ltac:(fold o; lia)) as (-> & _). cbn [bind].
      rewrite lput_ok by lia. eexists; split; [reflexivity|]. rewrite lset_length; auto.
    + rewrite Er. cbn [bind]. destruct (Normalize_any V R (uW st1) H1) as (W' & EN & HW'). fold o in EN. rewrite EN. cbn [bind].
      eexists _, _. split; [reflexivity|]. split; auto. repeat (split; [auto|]). auto.
Qed.
End A.

Section B.
Context {N : num} (LA : lapack N) (Hsh : svd_shaped (svd LA)) (clk : nat -> N) (rank0 : bool) (limit : N).
Context (V : tensor N) (R : nat).
Let o := order V.

Theorem alsCP_PU_sub_any tol tol_init lambda ratio size maxiter resprint same bench iter p : (3 <= o <= 9)%nat -> (size <= o)%nat -> resprint <> 0%Z ->
  pany V R p -> exists iter' p', alsCP_PP_partupdate_sub LA clk rank0 same V tol tol_init limit lambda ratio size maxiter resprint bench iter p = Ok (iter', p') /\ pany V R p'.
Proof.
  intros Ho Hsz Hres Hp. unfold alsCP_PP_partupdate_sub. fold o. assert (HW := proj1 Hp). destruct (W_get V R (pW p) 0 HW ltac:(fold o; lia)) as (-> & _ & Hc). cbn [bind]. rewrite Hc.
  destruct (mk_regul_any R lambda) as (regul & Er & HR). rewrite Er. cbn [bind]. rewrite mk_seqV_ok. cbn [bind].
  destruct (mk_dW_any V R (pW p) HW) as (Ms & EM & HMs). fold o in EM. rewrite EM. cbn [bind].
  set (body := PU_sub_iter _ _ _ _ _ _ _ _ _ _ _ _ _ _ _ _ _).
  set (Pr := fun (k : nat) (u : pusub (N:=N)) => let s := vb u in pany V R (bst s) /\ sq_ok R (bS s) /\ bseq s = lbuf o /\ mats_ok V (vM u) R /\ mats_ok V (vdM u) R /\ length (vrel u) = o /\
      (k <> 0%nat -> factors_ok V (bprev s) R /\ mpok V R (bmp s) (bprev s))).
  destruct (for_iter_run Pr (fun _ _ u => pany V R (bst (vb u))) body (rounds iter maxiter) 0%nat iter (mkPUsub (mkSub p (zeros [R; R]) [] (lbuf o) sempty (n0 : N)) Ms Ms (repeat n0 o))) as (f & k & u & E & Hs).
  - unfold Pr. cbn [vb bst bS bseq vM vdM vrel]. split; auto. split; [split; [reflexivity|apply tabulate_wf]|]. split; [reflexivity|]. split; auto. split; auto.
    split; [apply repeat_length|]. intros []; auto.
  - intros k u Hk. unfold Pr at 1. cbv zeta. intros (Hpk & HS & Hsq & HM & HdM & Hrel & Hb). subst body. rewrite Nat.sub_0_r. unfold PU_sub_iter. fold o. cbv zeta. set (s := vb u) in *.
    assert (Ec : exists c, (if bench then Ok 0%nat else dw_count o tol_init (pW (bst s)) (pdW (bst s))) = Ok c).
    { destruct bench; [eauto|]. apply (dw_count_any V R); apply Hpk. }
    destruct Ec as (c & ->). cbn [bind]. replace (iter + Z.of_nat k - iter)%Z with (Z.of_nat k) by lia.
    destruct (((Z.rem (Z.of_nat k) 15 =? 0)%Z || (0 <? c)%nat) && ((0 <? c)%nat || negb (iter + Z.of_nat k =? iter)%Z)) eqn:Ei.
    { exists Return, u. auto. }
    assert (Hs1 : exists s1, (if (Z.rem (Z.of_nat k) 15 =? 0)%Z || (0 <? c)%nat then
            dW <- zero_dW o (pdW (bst s)) ;;
            mp <- build_operators same V (pW (bst s)) (lbuf o) ;;
            Ok (mkSub (mkPP (pW (bst s)) (pG (bst s)) dW (ppn (bst s)) (pio (bst s))) (bS s) (pW (bst s)) (bseq s) mp (bdf s))
          else Ok s) = Ok s1 /\ pany V R (bst s1) /\ sq_ok R (bS s1) /\ bseq s1 = lbuf o /\ factors_ok V (bprev s1) R /\ mpok V R (bmp s1) (bprev s1)).
    { destruct (_ || _) eqn:Ea in Ei |- *.
      - destruct Hpk as (P1 & P2 & P3). destruct (zero_dW_any V R (pdW (bst s)) P3) as (D & Ez & HD). fold o in Ez. rewrite Ez. cbn [bind].
        destruct (build_operators_any V R same (pW (bst s)) P1) as (mp & Em & Hmp); [auto|]. fold o in Em. rewrite Em. cbn [bind].
        eexists. split; [reflexivity|]. cbn [bst bS bseq bprev bmp]. split; [split; [auto|split; auto]|auto].
      - exists s. split; auto. split; auto. split; auto. split; auto. apply Hb. intros ->. cbn in Ea. discriminate. }
    destruct Hs1 as (s1 & Es1 & Hp1 & HS1 & Hsq1 & Hw1 & Hm1). rewrite Es1. clear Es1. cbn [bind]. unfold zmod.
    destruct (Z.eqb_spec resprint 0); [contradiction|]. cbn [bind].
    assert (Hc' : exists stop s2, (if (Z.rem (iter + Z.of_nat k) resprint =? 0)%Z || (iter + Z.of_nat k =? maxiter)%Z || (iter + Z.of_nat k =? iter)%Z
        then PP_check clk rank0 V tol limit bench maxiter (iter + Z.of_nat k) s1 else Ok (false, s1)) = Ok (stop, s2) /\
        pany V R (bst s2) /\ sq_ok R (bS s2) /\ bseq s2 = lbuf o /\ factors_ok V (bprev s2) R /\ mpok V R (bmp s2) (bprev s2)).
    { destruct (_ || _ || _).
      - unfold PP_check. rewrite Hsq1. destruct Hp1 as (P1 & P2 & P3).
        destruct (measure_any V R clk (pW (bst s1)) (pG (bst s1)) (pio (bst s1))) as (pn & dn & dt & x' & Em); auto; [fold o; lia|apply P2|].
        fold o in Em. rewrite Em. cbn [bind]. match goal with |- context [let '(x, df) := ?e in _] => destruct e as [x1 df] end.
        destruct (stop_test _ _ _ _ _) as [stop x2]. eexists _, _. split; [reflexivity|]. cbn [bst bS bseq bprev bmp]. split; [split; [auto|split; auto]|auto].
      - exists false, s1. auto 8. }
    destruct Hc' as (stop & s2 & -> & Hp2 & HS2 & Hsq2 & Hw2 & Hm2). cbn [bind]. destruct stop; [eexists Break, _; split; [reflexivity|auto]|].
    destruct Hp2 as (P1 & P2 & P3). rewrite Hsq2.
    destruct (PU_sweep_any LA Hsh V R (bmp s2) (bprev s2) (mkPU (pW (bst s2)) (pG (bst s2)) (pdW (bst s2)) (vM u) (vdM u) (bS s2) (lbuf o)) lambda ratio regul size (vrel u))
      as (rel' & t & Es & (H1 & H2 & H3 & H4 & H5 & H6 & H7) & H8); auto; [fold o; lia|split; auto; split; auto; split; auto; split; auto; split; auto; split; auto|].
    fold o in Es. rewrite Es. cbn [bind]. eexists Go, _. split; [reflexivity|]. unfold Pr. cbn [vb bst bS bseq vM vdM vrel bprev bmp]. split; [split; [auto|split; auto]|]. auto 10.
  - rewrite E. cbn [bind]. eexists _, (bst (vb u)). split; [reflexivity|]. destruct f; [apply Hs|apply Hs|apply Hs].
Qed.
Theorem alsCP_PU_any wf fuel same W G tol tol_init maxiter lambda ratio size resprint (bench : bool) x :
  (if bench then 3 <= o <= 9 else o = 4 \/ 6 <= o <= 9)%nat -> (size <= o)%nat -> (o < fuel)%nat -> resprint <> 0%Z ->
  factors_ok V W R -> mats_ok V G R ->
  alsCP_PP_partupdate LA clk rank0 wf fuel same V W G tol tol_init limit maxiter lambda ratio size resprint bench x = Err LoopFuel \/
  exists ret p, alsCP_PP_partupdate LA clk rank0 wf fuel same V W G tol tol_init limit maxiter lambda ratio size resprint bench x = Ok (ret, p) /\ pany V R p.
Proof.
  intros Ho Hsz Hf Hres HW HG. unfold alsCP_PP_partupdate, wtime. fold o. destruct (mk_dW_any V R W HW) as (D & E & HD). fold o in E. rewrite E. cbn [bind].
  set (dts := if bench then (fun (i : Z) (p : pp_state (N:=N)) => Ok (i, p)) else alsCP_DT_sub LA clk rank0 fuel V tol tol_init limit lambda maxiter resprint).
  set (x0 := set_st _ _). set (sub := alsCP_PP_partupdate_sub _ _ _ _ _ _ _ _ _ _ _ _ _ _).
  assert (EW : forall wf i p, pp_while wf (alsCP_DT_sub LA clk rank0 fuel V tol tol_init limit lambda maxiter resprint) sub tol maxiter bench i p =
     pp_while wf dts sub tol maxiter bench i p).
  { subst dts. destruct bench; auto. clear. induction wf; intros; cbn [pp_while]; destruct (_ && _); auto. cbn [bind]. destruct (sub i p) as [[i' p']|]; cbn [bind]; auto. }
  rewrite EW. destruct (pp_while_any (pany V R) dts sub tol maxiter bench) with
    (wf := wf) (iter := 0%Z) (p := mkPP W G D (nlit 10) x0) as [Eq|(i' & p' & Eq & Hp')].
  - subst dts. intros i p Hp. destruct bench; [eauto|]. apply alsCP_DT_sub_any; auto. fold o. lia.
  - intros i p Hp. apply alsCP_PU_sub_any; auto. destruct bench; lia.
  - split; auto.
  - rewrite Eq. left. reflexivity.
  - rewrite Eq. cbn [bind]. right. eexists _, p'. split; [reflexivity|auto].
Qed.
End B.
