(** The modes, sweeps and checks of als_Tucker.cxx over an arbitrary number type: no failure, shapes kept. *)
From Coq Require Import List ZArith QArith Lia Bool Arith.
From Verif Require Import Base Num Tensor Spec Spec2 Spec7 Spec8 Spec9 MCommon MCP MTucker PBase PTensor PMat PMatAlg PGrad PTree PDrivers PTtm PTucker PHosvd PTDT PSign PTSweep
  PTDrivers PTPP PTPP2 PTPPDriver PPPDriver PPar PPar2 PPar3 PPar7.
Import ListNotations.
Local Close Scope Q_scope.

Lemma map_lset {X Y} (f : X -> Y) l i a : map f (lset l i a) = lset (map f l) i (f a).
Proof. revert i. induction l; intros [|i]; cbn; congruence. Qed.

Section A.
Context {N : num}.
Context (V : tensor N) (ranks : list nat) (HV : wf V).
Let o := order V.
Notation RU := Unum_ring.
Notation U := (cp V).

Lemma U_sim : tsw V U.
Proof. apply cp_sim; exact HV. Qed.
Lemma dw_sim W : dW_ok V ranks W -> lsim W (map cp W).
Proof.
  intros [HL HM]. assert (H : Forall (fun A => wf A) W).
  { apply Forall_forall. intros A HA. destruct (In_nth _ _ tnil HA) as (m & Hm & <-). apply (HM m). rewrite <- HL. exact Hm. }
  clear HL HM. induction H; cbn; constructor; auto. apply cp_sim; auto.
Qed.
Lemma dw_cp W : dW_ok V ranks W -> dW_ok U ranks (map cp W).
Proof.
  intros [HL HM]. split; [rewrite map_length; exact HL|]. intros m Hm. change (order U) with (order V) in Hm. rewrite nth_cp by (rewrite HL; exact Hm).
  destruct (HM m Hm) as [H1 H2]. split; [exact H1|]. apply (cp_sim _ H2).
Qed.
Lemma dw_back W W' : lsim W W' -> dW_ok U ranks W' -> dW_ok V ranks W.
Proof.
  intros Hs [HL HM]. assert (Hl := lsim_length _ _ Hs). split; [rewrite Hl; exact HL|]. intros m Hm.
  specialize (HM m Hm). change (lens U) with (lens V) in HM.
  assert (H : forall k, (k < length W)%nat -> tsw (fac W k) (fac W' k)).
  { clear -Hs. induction Hs; intros [|k] Hk; cbn in *; try lia; auto. apply IHHs. lia. }
  change (order U) with (order V) in HL. destruct (H m) as (H1 & H2 & H3); [lia|]. split; auto. rewrite H1. apply HM.
Qed.
Lemma tk_dw W : tucker_ok V W ranks -> dW_ok V ranks W.
Proof. apply tucker_dW. Qed.
Lemma tk_cp W : tucker_ok V W ranks -> tucker_ok U (map cp W) ranks.
Proof.
  intros HW. destruct (dw_cp W (tk_dw W HW)) as [H1 H2]. split; [apply U_sim|]. split; [exact H1|]. split; [apply HW|exact H2].
Qed.
Lemma tk_sim W : tucker_ok V W ranks -> lsim W (map cp W).
Proof. intros HW. apply dw_sim, tk_dw, HW. Qed.

Definition YL : list nat := lset ranks (o - 1) (nth (o - 1) (lens V) 0%nat).
Definition shp (A : tensor N) (ls : list nat) : Prop := lens A = ls /\ wf A.
Lemma shp_sim A ls : shp A ls -> tsw A (cp A).
Proof. intros [_ H]. apply cp_sim; auto. Qed.

Section L.
Context (Ho : (2 <= o <= 18)%nat) (Hr : ranks_ok (lens V) ranks).
Lemma U18 : (2 <= order U <= 18)%nat.
Proof. exact Ho. Qed.
Lemma UY W i : tucker_ok V W ranks -> (i < o)%nat -> ttmc_lens U (map cp W) (others i o) = lset ranks i (nth i (lens V) 0%nat).
Proof. intros HW Hi. symmetry. apply (Y_lens U ranks U18 (map cp W) i (tk_cp W HW) Hi). Qed.

Lemma save_any i (Y_end Y : tensor N) : (i < o)%nat -> shp Y (lset ranks i (nth i (lens V) 0%nat)) -> shp Y_end YL ->
  exists Z, save_Yend o i Y_end Y (lbuf o) = Ok Z /\ shp Z YL.
Proof.
  intros Hi HY HE. assert (Hlr : length ranks = o) by apply Hr.
  assert (E := save_Yend_ok RU U U18 i (cp Y_end) (cp Y) Hi).
  destruct (osim_run _ _ _ _ (save_Yend_sim o i Y_end (cp Y_end) Y (cp Y) (lbuf o) (shp_sim _ _ HE) (shp_sim _ _ HY)) (E ltac:(apply (shp_sim _ _ HY))
     ltac:(unfold order; cbn [cp lens]; rewrite (proj1 HY), lset_length; exact Hlr)
     ltac:(intros Hio; cbn [cp lens]; rewrite (proj1 HY), (proj1 HE); unfold YL; change (order U) with o in Hio; replace i with (o - 1)%nat by lia; reflexivity)))
    as (Z & EZ & HZ). exists Z. split; [exact EZ|]. destruct HZ as (H1 & H2 & _). split; [|exact H2]. rewrite H1. change (order U) with o.
  destruct (Nat.eqb_spec (i + 1) o); cbn [cp lens]; [rewrite (proj1 HY); unfold YL; replace i with (o - 1)%nat by lia; reflexivity|apply HE].
Qed.
Lemma end_any (core Y_end : tensor N) W : lens core = ranks -> tucker_ok V W ranks -> shp Y_end YL ->
  exists C, end_core o (lbuf o) core Y_end W = Ok C /\ shp C ranks.
Proof.
  intros HC HW HE. assert (E := end_core_gen RU U ranks U18 (cp core) (cp Y_end) (map cp W) HC (tk_cp W HW)).
  destruct (osim_run _ _ _ _ (end_core_sim o (lbuf o) core (cp core) Y_end (cp Y_end) W (map cp W) eq_refl (shp_sim _ _ HE) (tk_sim W HW))
    (E ltac:(change (order U) with o; rewrite UY by (auto; lia); apply HE) ltac:(apply (shp_sim _ _ HE)))) as (C & EC & _).
  exists C. split; [exact EC|]. unfold end_core in EC. apply bind_ok in EC as ([a b] & _ & EC). apply bind_ok in EC as (c & _ & EC).
  destruct (assign_b_lens _ _ _ _ EC) as [H1 H2]. split; [rewrite H1; exact HC|exact H2].
Qed.
Lemma mk_Yend_any W : tucker_ok V W ranks -> exists Y, mk_Yend V W = Ok Y /\ shp Y YL.
Proof.
  intros HW. destruct (osim_run _ _ _ _ (mk_Yend_sim V U W (map cp W) U_sim (tk_sim W HW)) (mk_Yend_ok U ranks U18 Hr (map cp W) (tk_cp W HW))) as (Y & E & HY).
  exists Y. split; [exact E|]. destruct HY as (H1 & H2 & _). split; [|exact H2]. rewrite H1. cbn [zeros tabulate lens]. apply (UY W (o - 1)%nat HW). lia.
Qed.

(** ** the decomposition and the signs *)
Section LA.
Context (LA : lapack N) (Hsvd : svd_trunc_shaped (svd LA)).
Lemma neg_any (A : tensor N) n k (c : N) : is_mat A n k -> exists B, assign false A sij [mkTerm c [(A, sij)]] = Ok B /\ is_mat B n k.
Proof.
  intros [H1 H2]. assert (E : exists B, assign false A sij [mkTerm c [(A, sij)]] = Ok B).
  { unfold assign, term_ok, lengths_ok, dims, order. rewrite H1. cbn [length sij forallb facs flat_map fst snd combine app]. rewrite H1.
    unfold consistent. cbn. rewrite !Nat.eqb_refl. cbn. eauto. }
  destruct E as (B & E). exists B. split; auto. destruct (assign_lens _ _ _ _ _ E) as [E1 E2]. split; [rewrite E1; exact H1|exact E2].
Qed.
Lemma tk_svd_any (core Y : tensor N) i n k : wf Y -> (order Y <= 18)%nat -> (i < order Y)%nat -> (i < order core)%nat ->
  nth i (lens Y) 0%nat = n -> nth i (lens core) 0%nat = k -> (1 <= k <= n)%nat ->
  exists A Sg, tk_svd LA core Y i = Ok (A, Sg) /\ is_mat A n k /\ lens Sg = [k] /\ wf Sg.
Proof.
  intros HY HoY Hi Hc Hn Hk Hkn. unfold tk_svd.
  destruct (osim_run _ _ _ _ (unroll_sim Y (cp Y) i (cp_sim Y HY)) (unroll_ok RU (cp Y) i (proj2 (proj2 (cp_sim Y HY))) HoY Hi)) as (G & EG & HG).
  rewrite EG. cbn [bind]. rewrite (lget_ok _ _ 0%nat) by exact Hc. cbn [bind]. rewrite Hk.
  assert (HGm : is_mat G n n). { destruct HG as (H1 & H2 & _). split; auto. rewrite H1. unfold unfold_gram. cbn [tabulate lens cp]. rewrite Hn. reflexivity. }
  specialize (Hsvd G n k HGm Hkn). destruct (svd LA G k) as [[A Sg] VT]. destruct Hsvd as (HA & HS & HSw).
  destruct (nltb (norm2 A) n0); cbn [bind].
  - destruct (neg_any A n k (nopp n1) HA) as (B & EB & HB). rewrite EB. cbn [bind]. exists B, Sg. auto.
  - exists A, Sg. auto.
Qed.
Lemma sign_any (A Sg P : tensor N) n k : is_mat A n k -> is_mat P n k -> lens Sg = [k] -> wf Sg ->
  exists B, sign_align A Sg P = Ok B /\ is_mat B n k.
Proof.
  intros HA HP HS HSw. assert (WA := cp_sim A (proj2 HA)). assert (WP := cp_sim P (proj2 HP)). assert (WS := cp_sim Sg HSw).
  assert (HA2 : is_mat (cp A) n k) by (split; [apply HA|apply WA]). assert (HP2 : is_mat (cp P) n k) by (split; [apply HP|apply WP]).
  destruct (osim_run _ _ _ _ (sign_align_sim A (cp A) Sg (cp Sg) P (cp P) WA WS WP) (sign_align_ok RU (cp A) (cp Sg) (cp P) n k HA2 HP2 HS (proj2 (proj2 WS)))) as (B & EB & _).
  exists B. split; [exact EB|]. unfold sign_align in EB. cbv zeta in EB. repeat (apply bind_ok in EB as (? & _ & EB)).
  destruct (assign_lens _ _ _ _ _ EB) as [E1 E2]. split; [rewrite E1; apply HA|exact E2].
Qed.
(** U of the mode, from a Y of the right shape *)
Lemma mode_svd_any (core Y : tensor N) i : (i < o)%nat -> lens core = ranks -> shp Y (lset ranks i (nth i (lens V) 0%nat)) ->
  exists A Sg, tk_svd LA core Y i = Ok (A, Sg) /\ is_mat A (nth i (lens V) 0%nat) (nth i ranks 0%nat) /\ lens Sg = [nth i ranks 0%nat] /\ wf Sg.
Proof.
  intros Hi HC HY. assert (Hlr : length ranks = o) by apply Hr.
  apply tk_svd_any; try apply HY.
  - unfold order. rewrite (proj1 HY), lset_length, Hlr. lia.
  - unfold order. rewrite (proj1 HY), lset_length, Hlr. lia.
  - unfold order. rewrite HC, Hlr. lia.
  - rewrite (proj1 HY). apply lset_same. rewrite Hlr. exact Hi.
  - rewrite HC. reflexivity.
  - apply Hr. exact Hi.
Qed.

(** ** the dimension tree *)
Section DT.
Context (fuel : nat) (parent sibling : smap str).
Context (Hfuel : (o < fuel)%nat) (Htree : tree_maps o parent sibling) (Hgood : (o = 2 \/ o = 4 \/ 6 <= o)%nat).
Definition tabany (W : list (tensor N)) (i : nat) (mp : smap (tensor N)) : Prop := exists mp', msim mp mp' /\ ttable_ok U (map cp W) i mp'.
Lemma tabany_empty W : tabany W 0 sempty.
Proof. exists sempty. split; [apply msim_empty|apply ttable_empty]. Qed.
Lemma tree_Y_any W i mp : tucker_ok V W ranks -> (i < o)%nat -> tabany W i mp ->
  exists mp' Y, dt_Y fuel parent sibling V W (lbuf o) (zeros (lset ranks i (nth i (lens V) 0%nat))) mp (lbuf o) i = Ok (mp', Y, lbuf o) /\
    shp Y (lset ranks i (nth i (lens V) 0%nat)) /\ forall A, tabany (setf W i A) (S i) mp'.
Proof.
  intros HW Hi (mq & Hm & Ht).
  destruct (tree_Y RU U ranks U18 fuel parent sibling Hfuel Htree Hgood (map cp W) i mq (tk_cp W HW) Hi) as (mq' & E & Hv & Hnew); [apply ttable_valid; auto; exact U18|].
  destruct (osim_run _ _ _ _ (dt_Y_sim fuel parent sibling V U W (map cp W) (lbuf o) (zeros (lset ranks i (nth i (lens V) 0%nat))) _ mp mq (lbuf o) i U_sim (tk_sim W HW) (tsw_zeros _) Hm) E)
    as ([[mp' Y] q] & E1 & [[H1 H2] H3]). cbn [fst snd] in *. subst q. exists mp', Y. split; [exact E1|]. split.
  - destruct H2 as (L1 & L2 & _). split; [|exact L2]. rewrite L1. cbn [ttmc tabulate lens]. apply UY; auto.
  - intros A. exists mq'. split; auto. unfold setf. rewrite map_lset. apply (ttable_next U U18 (map cp W) i (cp A) mq mq'); auto.
    rewrite map_length. apply HW.
Qed.
Lemma DT_mode_any (core : tensor N) W mp Y_end i : lens core = ranks -> tucker_ok V W ranks -> (i < o)%nat -> tabany W i mp -> shp Y_end YL ->
  exists W' mp' Y', Tucker_DT_mode LA fuel parent sibling V core (lbuf o) i (W, mp, Y_end, ranks, lbuf o) = Ok (W', mp', Y', ranks, lbuf o) /\
    tucker_ok V W' ranks /\ tabany W' (S i) mp' /\ shp Y' YL.
Proof.
  intros HC HW Hi Ht HE. assert (Hlr : length ranks = o) by apply Hr. pose proof HW as (_ & LW & _ & HM). unfold Tucker_DT_mode.
  rewrite (lget_ok (lens V) i 0%nat) by exact Hi. cbn [bind]. rewrite lput_ok by lia. cbn [bind].
  rewrite (lget_ok W i tnil) by (rewrite LW; exact Hi). cbn [bind]. rewrite lput_ok by (rewrite lset_length; lia). cbn [bind]. rewrite lset_lset.
  fold (fac W i). rewrite (mat_ncol _ _ _ (HM i Hi)), lset_self.
  destruct (tree_Y_any W i mp HW Hi Ht) as (mp' & Y & E & HY & Ht'). rewrite E. cbn [bind].
  fold o. destruct (save_any i Y_end Y Hi HY HE) as (Z & EZ & HZ). rewrite EZ. cbn [bind].
  destruct (mode_svd_any core Y i Hi HC HY) as (A & Sg & EA & HA & _). rewrite EA. cbn [bind]. rewrite lput_ok by (rewrite LW; exact Hi). cbn [bind].
  exists (setf W i A), mp', Z. split; [|split; [apply setf_tucker; auto|split; [apply Ht'|exact HZ]]].
  unfold setf. reflexivity.
Qed.
End DT.
End LA.
End L.
End A.
