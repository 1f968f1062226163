(** als_Tucker.cxx over an arbitrary number type, continued: sweeps, checks and the pairwise-perturbation pieces. *)
From Coq Require Import List ZArith QArith Lia Bool Arith.
From Verif Require Import Base Num Tensor Spec Spec2 Spec7 Spec8 Spec9 MCommon MCP MTucker PBase PTensor PMat PMatAlg PGrad PTree PDrivers PTtm PTucker PHosvd PTDT PSign PTSweep
  PTDrivers PTPP PTPP2 PTPPDriver PPPDriver PPP PMttkrp PPar PPar2 PPar3 PPar7 PPar8.
Import ListNotations.
Local Close Scope Q_scope.

Section A.
Context {N : num} (LA : lapack N) (Hsvd : svd_trunc_shaped (svd LA)).
Context (V : tensor N) (ranks : list nat) (HV : wf V).
Let o := order V.
Notation RU := Unum_ring.
Notation U := (cp V).
Context (Ho : (2 <= o <= 18)%nat) (Hr : ranks_ok (lens V) ranks).
Local Lemma Ho' : (2 <= order V <= 18)%nat.
Proof. exact Ho. Qed.

(** ** sweeps of the dimension tree *)
Section DT.
Context (fuel : nat) (parent sibling : smap str).
Context (Hfuel : (o < fuel)%nat) (Htree : tree_maps o parent sibling) (Hgood : (o = 2 \/ o = 4 \/ 6 <= o)%nat).
Lemma DT_sweep_tk (core : tensor N) W Y_end : lens core = ranks -> tucker_ok V W ranks -> shp Y_end (YL V ranks) ->
  exists C W' Y', Tucker_DT_sweep LA fuel parent sibling V core (lbuf o) (W, Y_end, ranks, lbuf o) = Ok (C, (W', Y', ranks, lbuf o)) /\
    shp C ranks /\ tucker_ok V W' ranks /\ shp Y' (YL V ranks).
Proof.
  intros HC HW HE. unfold Tucker_DT_sweep. fold o.
  destruct (for_inv (fun i (st : tk_sweep (N:=N)) => let '(W, mp, Y, ls, q) := st in tucker_ok V W ranks /\ tabany V W i mp /\ shp Y (YL V ranks) /\ ls = ranks /\ q = lbuf o)
    (Tucker_DT_mode LA fuel parent sibling V core (lbuf o)) 0%nat o (W, sempty, Y_end, ranks, lbuf o)) as ([[[[W1 mp1] Y1] l1] q1] & E & H1 & _ & H3 & H4 & H5).
  - lia.
  - split; auto. split; [apply tabany_empty|auto].
  - intros i [[[[W1 mp1] Y1] l1] q1] Hi (H1 & H2 & H3 & -> & ->).
    destruct (DT_mode_any V ranks HV Ho' Hr LA Hsvd fuel parent sibling Hfuel Htree Hgood core W1 mp1 Y1 i HC H1 ltac:(fold o; lia) H2 H3) as (W' & mp' & Y' & E & K1 & K2 & K3).
    fold o in E. rewrite E. eexists. split; [reflexivity|]. cbv beta iota. auto.
  - rewrite E. cbn [bind]. subst l1 q1. destruct (end_any V ranks HV Ho' core Y1 W1 HC H1 H3) as (C & EC & K). fold o in EC. rewrite EC. cbn [bind].
    exists C, W1, Y1. auto.
Qed.
Lemma sub_mode_tk (core : tensor N) P W mp Y_end i : lens core = ranks -> tucker_ok V W ranks -> dW_ok V ranks P -> (i < o)%nat -> tabany V W i mp -> shp Y_end (YL V ranks) ->
  exists W' mp' Y', Tucker_sub_mode LA fuel parent sibling V core P (lbuf o) i (W, mp, Y_end, lbuf o) = Ok (W', mp', Y', lbuf o) /\
    tucker_ok V W' ranks /\ tabany V W' (S i) mp' /\ shp Y' (YL V ranks).
Proof.
  intros HC HW [HP1 HP2] Hi Ht HE. assert (Hlr : length ranks = o) by apply Hr. pose proof HW as (_ & LW & _ & HM). unfold Tucker_sub_mode. fold o.
  assert (En := ncols_ranks V ranks Ho' Hr W HW). fold o in En. rewrite En. cbn [bind].
  rewrite (lget_ok (lens V) i 0%nat) by exact Hi. cbn [bind]. rewrite lput_ok by lia. cbn [bind].
  destruct (tree_Y_any V ranks HV Ho' fuel parent sibling Hfuel Htree Hgood W i mp HW Hi Ht) as (mp' & Y & E & HY & Ht'). fold o in E. rewrite E. cbn [bind].
  destruct (save_any V ranks Ho' Hr i Y_end Y Hi HY HE) as (Z & EZ & HZ). fold o in EZ. rewrite EZ. cbn [bind].
  destruct (mode_svd_any V ranks Ho' Hr LA Hsvd core Y i Hi HC HY) as (A & Sg & EA & HA & HS & HSw). rewrite EA. cbn [bind].
  rewrite (lget_ok P i tnil) by (rewrite HP1; exact Hi). cbn [bind]. fold (fac P i).
  destruct (sign_any A Sg (fac P i) _ _ HA (HP2 i Hi) HS HSw) as (B & EB & HB). rewrite EB. cbn [bind]. rewrite lput_ok by (rewrite LW; exact Hi). cbn [bind].
  exists (setf W i B), mp', Z. split; [reflexivity|split; [apply setf_tucker; auto|split; [apply Ht'|exact HZ]]].
Qed.
Lemma sub_sweep_tk (core : tensor N) P W Y_end : lens core = ranks -> tucker_ok V W ranks -> dW_ok V ranks P -> shp Y_end (YL V ranks) ->
  exists C W' Y', Tucker_sub_sweep LA fuel parent sibling V core P (lbuf o) (W, Y_end, lbuf o) = Ok (C, (W', Y', lbuf o)) /\
    shp C ranks /\ tucker_ok V W' ranks /\ shp Y' (YL V ranks).
Proof.
  intros HC HW HP HE. unfold Tucker_sub_sweep. fold o.
  destruct (for_inv (fun i (st : list (tensor N) * smap (tensor N) * tensor N * buf Z) => let '(W, mp, Y, q) := st in tucker_ok V W ranks /\ tabany V W i mp /\ shp Y (YL V ranks) /\ q = lbuf o)
    (Tucker_sub_mode LA fuel parent sibling V core P (lbuf o)) 0%nat o (W, sempty, Y_end, lbuf o)) as ([[[W1 mp1] Y1] q1] & E & H1 & _ & H3 & H5).
  - lia.
  - split; auto. split; [apply tabany_empty|auto].
  - intros i [[[W1 mp1] Y1] q1] Hi (H1 & H2 & H3 & ->).
    destruct (sub_mode_tk core P W1 mp1 Y1 i HC H1 HP ltac:(lia) H2 H3) as (W' & mp' & Y' & E & K1 & K2 & K3).
    rewrite E. eexists. split; [reflexivity|]. cbv beta iota. auto.
  - rewrite E. cbn [bind]. subst q1. destruct (end_any V ranks HV Ho' core Y1 W1 HC H1 H3) as (C & EC & K). fold o in EC. rewrite EC. cbn [bind].
    exists C, W1, Y1. auto.
Qed.
End DT.

(** ** pairwise perturbation *)
Definition opsany (W0 : list (tensor N)) (mp : smap (tensor N)) : Prop := exists mp', msim mp mp' /\ ops_ok U (map cp W0) mp'.
Lemma ops_any W : (3 <= o <= 9)%nat -> tucker_ok V W ranks -> exists mp, build_ttmc_operators V W (lbuf o) = Ok mp /\ opsany W mp.
Proof.
  intros H9 HW. destruct (operators_ok RU U ltac:(change (order U) with o; lia) (map cp W) H9 (tucker_shapes _ _ _ (tk_cp V ranks HV W HW))) as (mp' & E & H1 & H2).
  destruct (osim_run _ _ _ _ (build_ttmc_sim V U W (map cp W) (lbuf o) (U_sim V HV) (tk_sim V ranks W HW)) E) as (mp & E1 & HS).
  exists mp. split; auto. exists mp'. split; auto. split; auto.
Qed.
Lemma pp_Y_any W0 dW mp i : tucker_ok V W0 ranks -> dW_ok V ranks dW -> opsany W0 mp -> (i < o)%nat ->
  exists Y, pp_Y V mp (lbuf o) (lbuf o) dW i = Ok (Y, lbuf o) /\ shp Y (lset ranks i (nth i (lens V) 0%nat)).
Proof.
  intros HW0 HD (mp' & Hm & Hops) Hi.
  assert (E := pp_Y_ok RU U ranks Ho' (map cp W0) (map cp dW) mp' i (tk_cp V ranks HV W0 HW0) (dw_cp V ranks dW HD) Hops Hi).
  destruct (osim_run _ _ _ _ (pp_Y_sim V U mp mp' (lbuf o) (lbuf o) dW (map cp dW) i (U_sim V HV) Hm (dw_sim V ranks dW HD)
    ltac:(intros a Ea; change (order U) with o in Ea; rewrite except1_ok in Ea by lia; injection Ea as <-; destruct Hops as [_ Hops]; change (order U) with o in Hops; rewrite Hops by exact Hi; discriminate)) E)
    as ([Y q] & E1 & [H1 H2]). cbn [fst snd] in *. subst q. exists Y. split; [exact E1|]. destruct H1 as (L1 & L2 & _). split; [|exact L2].
  rewrite L1, (pp_ttmc_lens U). apply (UY V ranks HV Ho' W0 i HW0 Hi).
Qed.
Lemma sub_any (D A B : tensor N) n k (c d : N) : is_mat D n k -> is_mat A n k -> is_mat B n k ->
  exists E, assign false D sij [mkTerm c [(A, sij)]; mkTerm d [(B, sij)]] = Ok E /\ is_mat E n k.
Proof.
  intros HD HA HB. assert (E : exists E, assign false D sij [mkTerm c [(A, sij)]; mkTerm d [(B, sij)]] = Ok E).
  { unfold assign, term_ok, lengths_ok, dims, order. rewrite (proj1 HD). cbn [length sij forallb facs flat_map fst snd combine app]. rewrite ?(proj1 HD), ?(proj1 HA), ?(proj1 HB).
    unfold consistent. cbn. rewrite !Nat.eqb_refl. cbn. eauto. }
  destruct E as (E & EE). exists E. split; auto. destruct (assign_lens _ _ _ _ _ EE) as [E1 E2]. split; [rewrite E1; apply HD|exact E2].
Qed.
Lemma PP_sweep_tk (core : tensor N) mp W0 W dW Y_end : lens core = ranks -> tucker_ok V W0 ranks -> tucker_ok V W ranks -> dW_ok V ranks dW -> opsany W0 mp -> shp Y_end (YL V ranks) ->
  exists C W' D' Y', Tucker_PP_sweep LA V core mp W0 (lbuf o) (W, dW, Y_end, lbuf o) = Ok (C, (W', D', Y', lbuf o)) /\
    shp C ranks /\ tucker_ok V W' ranks /\ dW_ok V ranks D' /\ shp Y' (YL V ranks).
Proof.
  intros HC HW0 HW HD Hops HE. unfold Tucker_PP_sweep. fold o.
  destruct (for_inv (fun (i : nat) (st : list (tensor N) * list (tensor N) * tensor N * buf Z) => let '(W, D, Y, q) := st in tucker_ok V W ranks /\ dW_ok V ranks D /\ shp Y (YL V ranks) /\ q = lbuf o)
    (Tucker_PP_mode LA V core mp W0 (lbuf o)) 0%nat o (W, dW, Y_end, lbuf o)) as ([[[W1 D1] Y1] q1] & E & H1 & H2 & H3 & H5).
  - lia.
  - auto.
  - intros i [[[W1 D1] Y1] q1] Hi (H1 & H2 & H3 & ->). pose proof H1 as (_ & LW & _ & HM). assert (Hi' : (i < o)%nat) by lia. unfold Tucker_PP_mode.
    destruct (pp_Y_any W0 D1 mp i HW0 H2 Hops Hi') as (Y & EY & HY). rewrite EY. cbn [bind]. fold o.
    destruct (save_any V ranks Ho' Hr i Y1 Y Hi' HY H3) as (Z & EZ & HZ). fold o in EZ. rewrite EZ. cbn [bind].
    destruct (mode_svd_any V ranks Ho' Hr LA Hsvd core Y i Hi' HC HY) as (A & Sg & EA & HA & HS & HSw). rewrite EA. cbn [bind].
    pose proof HW0 as (_ & LW0 & _ & HM0). rewrite (lget_ok W0 i tnil) by (rewrite LW0; exact Hi'). cbn [bind]. fold (fac W0 i).
    destruct (sign_any A Sg (fac W0 i) _ _ HA (HM0 i Hi') HS HSw) as (B & EB & HB). rewrite EB. cbn [bind]. rewrite lput_ok by (rewrite LW; exact Hi'). cbn [bind].
    pose proof H2 as (LD & HDm). rewrite (lget_ok D1 i tnil) by (rewrite LD; exact Hi'). cbn [bind]. fold (fac D1 i).
    destruct (sub_any (fac D1 i) B (fac W0 i) _ _ n1 (nopp n1) (HDm i Hi') HB (HM0 i Hi')) as (Q & EQ & HQ). rewrite EQ. cbn [bind]. rewrite lput_ok by (rewrite LD; exact Hi'). cbn [bind].
    eexists. split; [reflexivity|]. cbv beta iota. fold (setf W1 i B) (setf D1 i Q). split; [apply setf_tucker; auto|]. split; [apply setf_dW_ok; auto|auto].
  - rewrite E. cbn [bind]. subst q1. destruct (end_any V ranks HV Ho' core Y1 W1 HC H1 H3) as (C & EC & K). fold o in EC. rewrite EC. cbn [bind].
    exists C, W1, D1, Y1. auto.
Qed.
End A.

(** ** the parts that need at most 10 modes *)
Section B.
Context {N : num} (LA : lapack N) (Hsvd : svd_trunc_shaped (svd LA)).
Context (V : tensor N) (ranks : list nat) (HV : wf V).
Let o := order V.
Notation RU := Unum_ring.
Notation U := (cp V).
Context (Ho : (2 <= o <= 10)%nat) (Hr : ranks_ok (lens V) ranks).
Local Lemma Ho18 : (2 <= order V <= 18)%nat.
Proof. fold o. lia. Qed.
Let uclk : nat -> Unum := fun _ => tt.

Lemma TTMc_any (Y : tensor N) i W : tucker_ok V W ranks -> contracted_modes i o <> [] ->
  exists C, TTMc Y V W i = Ok C /\ tsw C (ttmc U (map cp W) (contracted_modes i o)).
Proof.
  intros HW Hi. destruct (osim_run _ _ _ _ (TTMc_sim Y (tnil : tensor Unum) V U W (map cp W) i (U_sim V HV) (tk_sim V ranks W HW))
    (TTMc_ok RU tnil U (map cp W) i (tucker_shapes _ _ _ (tk_cp V ranks HV W HW)) ltac:(change (order U) with o; lia) Hi)) as (C & E & H).
  exists C. split; [exact E|]. destruct H as [[_ H]|H]; [|exact H]. exfalso.
  assert (Hw := ttmc_wf U (map cp W) (contracted_modes i (order U))). unfold wf in Hw. change (order U) with o in Hw, H. rewrite H in Hw. discriminate Hw.
Qed.
Lemma core_any (Y : tensor N) W : tucker_ok V W ranks -> exists C, TTMc Y V W None = Ok C /\ tsw C (tucker_core U (map cp W)).
Proof. intros HW. apply TTMc_any; auto. cbn [contracted_modes]. destruct o; [lia|discriminate]. Qed.
Lemma core_shp (C : tensor N) W : tucker_ok V W ranks -> tsw C (tucker_core U (map cp W)) -> shp C ranks.
Proof. intros HW (H1 & H2 & _). split; auto. rewrite H1. apply (core_lens uclk U ranks Ho (map cp W) (tk_cp V ranks HV W HW)). Qed.
Lemma plain_mode_any (core : tensor N) i W : lens core = ranks -> tucker_ok V W ranks -> (i < o)%nat ->
  exists W', alsTucker_mode LA V core i W = Ok W' /\ tucker_ok V W' ranks.
Proof.
  intros HC HW Hi. pose proof HW as (_ & LW & _ & HM). unfold alsTucker_mode.
  destruct (TTMc_any tnil (Some i) W HW) as (Y & EY & HY).
  { cbn [contracted_modes]. intros E. assert (H : In (if Nat.eqb i 0 then 1 else 0)%nat (others i o)) by (apply others_in; destruct (Nat.eqb_spec i 0); lia).
    rewrite E in H. destruct H. }
  rewrite EY. cbn [bind]. cbn [contracted_modes] in HY.
  assert (HYs : shp Y (lset ranks i (nth i (lens V) 0%nat))).
  { destruct HY as (L1 & L2 & _). split; auto. rewrite L1. apply (UY V ranks HV Ho18 W i HW Hi). }
  destruct (mode_svd_any V ranks Ho18 Hr LA Hsvd core Y i Hi HC HYs) as (A & Sg & EA & HA & _). rewrite EA. cbn [bind].
  rewrite lput_ok by (rewrite LW; exact Hi). eexists. split; [reflexivity|]. apply setf_tucker; auto.
Qed.
Lemma plain_sweep_any (core : tensor N) W : lens core = ranks -> tucker_ok V W ranks ->
  exists W', for_ 0 o (alsTucker_mode LA V core) W = Ok W' /\ tucker_ok V W' ranks.
Proof.
  intros HC HW. destruct (for_inv (fun _ W => tucker_ok V W ranks) (alsTucker_mode LA V core) 0%nat o W) as (W' & E & H); auto; [lia| |eauto].
  intros i W1 Hi H1. apply plain_mode_any; auto. lia.
Qed.
Lemma copy_any (prev core : tensor N) : lens prev = ranks -> shp core ranks -> exists C, copy_core prev core (lbuf o) = Ok C /\ shp C ranks.
Proof.
  intros HP [HC HCw]. assert (Hlr : length ranks = o) by apply Hr. assert (HCs := cp_sim core HCw).
  assert (E := copy_core_ok RU uclk U Ho (cp prev) (cp core) (proj2 (proj2 HCs)) ltac:(unfold order; cbn [cp lens]; rewrite HC; exact Hlr) ltac:(cbn [cp lens]; congruence)).
  destruct (osim_run _ _ _ _ (copy_core_sim prev (cp prev) core (cp core) (lbuf o) eq_refl HCs) E) as (C & EC & (H1 & H2 & _)).
  exists C. split; [exact EC|]. split; auto. rewrite H1. exact HC.
Qed.
Lemma tk_measure_any (clk : nat -> N) (core prev : tensor N) W x : tucker_ok V W ranks ->
  exists C dn dV dt x', tk_measure clk V core prev W x = Ok (C, dn, dV, dt, x') /\ shp C ranks.
Proof.
  intros HW. unfold tk_measure, check_begin, wtime. fold o. destruct (core_any core W HW) as (C & EC & HC). rewrite EC. cbn [bind].
  assert (KW := tk_cp V ranks HV W HW).
  destruct (osim_run _ _ _ _ (transposes_sim W (map cp W) o (tk_sim V ranks W HW)) (transposes RU uclk U ranks Ho (map cp W) KW)) as (WT & ET & HT).
  rewrite ET. cbn [bind].
  destruct (osim_run _ _ _ _ (TTMc_sim (zeros (lens V)) (tnil : tensor Unum) C (tucker_core U (map cp W)) WT _ None HC HT) (full_TTMc RU uclk U ranks Ho tnil (map cp W) KW)) as (Z & EZ & HZ).
  rewrite EZ. cbn [bind].
  assert (HL := full_lens uclk U ranks Ho (map cp W) KW). change (lens U) with (lens V) in HL.
  assert (HZw : tsw Z (tucker_full (tucker_core U (map cp W)) (map cp W))).
  { destruct HZ as [[_ HZ]|HZ]; [|exact HZ]. exfalso. rewrite HZ in HL. apply (f_equal (@length nat)) in HL. cbn in HL. fold o in Ho. unfold o, order in Ho. rewrite <- HL in Ho. lia. }
  rewrite mk_seqV_ok. cbn [bind]. rewrite lbuf_take. cbn [bind].
  assert (OZ : order Z = o) by (unfold order; rewrite (tsw_lens _ _ HZw), HL; reflexivity). rewrite OZ, lbuf_take. cbn [bind].
  assert (ED := assign_diff RU (zeros (lens V)) (tucker_full (tucker_core U (map cp W)) (map cp W)) U (letters chr o)).
  assert (S : osim tsw (assign false (zeros (lens V)) (letters chr o) [mkTerm n1 [(Z, letters chr o)]; mkTerm (nopp n1) [(V, letters chr o)]])
    (assign false (zeros (lens V)) (letters chr o) [mkTerm n1 [(tucker_full (tucker_core U (map cp W)) (map cp W), letters chr o)]; mkTerm (nopp n1) [(U, letters chr o)]])).
  { apply assign_sim; [reflexivity|]. assert (HU := U_sim V HV). facs_tac. }
  destruct (osim_run _ _ _ _ S (ED ltac:(apply letters_chr_nodup; lia) ltac:(rewrite letters_len; unfold order; rewrite HL; reflexivity) ltac:(apply HZw) ltac:(apply (U_sim V HV))
    ltac:(cbn [zeros tabulate lens]; rewrite HL; reflexivity) ltac:(rewrite HL; reflexivity))) as (D & EDd & _).
  rewrite EDd. cbn [bind]. unfold check_end, wtime. eexists _, _, _, _, _. split; [reflexivity|]. apply (core_shp C W HW HC).
Qed.

(** ** increments *)
Lemma tmk_dW_any W : tucker_ok V W ranks -> exists D, mk_dW W o = Ok D /\ dW_ok V ranks D.
Proof.
  intros HW. destruct (osim_run _ _ _ _ (mk_dW_sim W (map cp W) o (tk_sim V ranks W HW)) (tmk_dW_ok RU U ranks Ho (map cp W) (tk_cp V ranks HV W HW))) as (D & E & HD).
  exists D. split; auto. apply (dw_back V ranks _ _ HD), zfacs_ok.
Qed.
Lemma tdw_update_any t W dW P : dW_ok V ranks W -> dW_ok V ranks dW -> dW_ok V ranks P ->
  exists D P' c, dw_update o t W dW P = Ok (D, P', c) /\ dW_ok V ranks D /\ dW_ok V ranks P'.
Proof.
  intros HW HD HP. destruct (osim_run _ _ _ _ (dw_update_sim o t (tt : Unum) W (map cp W) dW (map cp dW) P (map cp P) (dw_sim V ranks W HW) (dw_sim V ranks dW HD) (dw_sim V ranks P HP))
    (tdw_update_ok RU U ranks Ho tt (map cp W) (map cp dW) (map cp P) (dw_cp V ranks W HW) (dw_cp V ranks dW HD) (dw_cp V ranks P HP))) as ([[D P'] c] & E & [HS1 HS2] & _).
  cbn [fst snd] in *. exists D, P', c. split; auto. split; [apply (dw_back V ranks _ _ HS1), tchanged_ok, dw_cp; auto|apply (dw_back V ranks _ _ HS2), dw_cp; auto].
Qed.
Lemma tdw_count_any t W dW : dW_ok V ranks W -> dW_ok V ranks dW -> exists c, dw_count o t W dW = Ok c.
Proof.
  intros HW HD. destruct (osim_run _ _ _ _ (dw_count_sim W (map cp W) dW (map cp dW) o t (tt : Unum) (dw_sim V ranks W HW) (dw_sim V ranks dW HD))
    (tdw_count_ok U ranks Ho tt (map cp W) (map cp dW) (dw_cp V ranks W HW) (dw_cp V ranks dW HD))) as (c & E & _). eauto.
Qed.
End B.
