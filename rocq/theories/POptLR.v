(** The low-rank optimizers: the cached tensor and its low-rank correction, the low-rank update, the loop *)
From Coq Require Import List ZArith QArith Lia Bool Arith Permutation Ring.
From Verif Require Import Base Num Tensor Spec Spec3 MCommon MCP MOpt MOptLR PBase PTensor PSum PMttkrp PPart PMat PKhatri PGrad PMatAlg PResid
  PSolve PTree PDT PDTSweep PALS PropPP PPPSweep POpt POptTree POptEval POptStep.
Import ListNotations.
Local Close Scope Q_scope.

Section C.
Context {N : num} (RL : ring_laws N).
Let RT : ring_theory (@n0 N) n1 nadd nmul nsub nopp (@eq N) := RL.
Add Ring Nring : RT.
Local Open Scope num_scope.
Context (V : tensor N) (R : nat).
Let o := order V.
Hypothesis Ho : (3 <= o <= 31)%nat.
Let Ho1 : (1 <= o <= 31)%nat := Ho1 V Ho.
Let d := dV (lens V) ch_star R.
Let Ed : d ch_star = R := DT_rk V R.
Definition dk (k : nat) (c : Z) : nat := if Z.eqb c ch_amp then k else d c.
Lemma chr_not_amp i : (i <= 30)%nat -> chr i <> ch_amp.
Proof. intros H. rewrite chr_small by auto. unfold ch_amp. lia. Qed.
Lemma star_not_amp : ch_star <> ch_amp. Proof. discriminate. Qed.
Lemma dk_chr k i : (i <= 30)%nat -> dk k (chr i) = d (chr i).
Proof. intros H. unfold dk. destruct (Z.eqb_spec (chr i) ch_amp); auto. exfalso. eapply chr_not_amp; eauto. Qed.
Lemma dk_star k : dk k ch_star = R.
Proof. unfold dk. destruct (Z.eqb_spec ch_star ch_amp); [discriminate|]. apply dV_rk. Qed.
Lemma dk_amp k : dk k ch_amp = k. Proof. reflexivity. Qed.
Lemma amp_notin ms : (forall m, In m ms -> m < o)%nat -> ~ In ch_amp (sstr ms).
Proof.
  intros H Hi. unfold sstr in Hi. apply in_app_or in Hi as [Hi|[Hi|[]]]; [|discriminate].
  apply in_map_iff in Hi as (m & E & Hm). apply H in Hm. apply (chr_not_amp m); auto. lia.
Qed.
Lemma dk_ext k s : ~ In ch_amp s -> map (dk k) s = map d s.
Proof. intros H. apply map_ext_in. intros c Hc. unfold dk. destruct (Z.eqb_spec c ch_amp); auto. subst c; tauto. Qed.
Lemma inr_dk k s e : ~ In ch_amp s -> inr (dk k) s e <-> inr d s e.
Proof.
  intros H. unfold inr. split; intros H1 c Hc; specialize (H1 c Hc); unfold dk in *; destruct (Z.eqb_spec c ch_amp); auto; subst c; tauto.
Qed.

(** V contracted with A + U VT is V contracted with A plus V contracted with U VT *)
Lemma after_lt l m : (l < o)%nat -> In m (after o l) -> (m < o)%nat.
Proof. intros Hl Hm. apply after_in in Hm; tauto. Qed.
Lemma letters_no_amp : ~ In ch_amp (letters chr o).
Proof. intros Hi. apply in_map_iff in Hi as (m & E & Hm). apply in_seq in Hm. apply (chr_not_amp m); auto. lia. Qed.
Lemma at_after W l e : (l < o)%nat -> inr d (sstr (after o l)) e ->
  at_ (partial_mttkrp V W (after o l) R) (map e (sstr (after o l))) =
  bigsum (seq 0 (d (chr l))) (fun i => at_ V (map (upd e (chr l) i) (letters chr o)) * el (fac W l) i (e ch_star)).
Proof.
  intros Hl He.
  assert (HA := partial_rep RL d chr ch_star o (DT_inj V Ho1) (DT_fresh V Ho1) V W (after o l) (after_nodup o l)
     (fun m => after_lt l m Hl) (DT_letters V R Ho1)).
  rewrite Ed in HA. destruct HA as (_ & _ & HA). fold (sstr (after o l)) in HA. rewrite HA by auto.
  rewrite (PM_perm RL d chr ch_star o (DT_inj V Ho1) V (fac W) (outside (after o l) o) [l]).
  - rewrite (PM_cons RL d chr ch_star o (DT_inj V Ho1) (DT_fresh V Ho1)) by (auto; intros m []).
    apply bigsum_ext. intros i _. rewrite (PM_nil RL). auto.
  - apply outside_nodup.
  - intros m Hm. apply outside_in in Hm. tauto.
  - apply NoDup_Permutation; [apply outside_nodup|repeat constructor; auto|]. intros x. cbn [In]. rewrite outside_in, after_in by auto. lia.
Qed.
Lemma partial_shape W l : (l < o)%nat -> lens (partial_mttkrp V W (after o l) R) = map d (sstr (after o l)) /\ wf (partial_mttkrp V W (after o l) R).
Proof.
  intros Hl.
  assert (HA := partial_rep RL d chr ch_star o (DT_inj V Ho1) (DT_fresh V Ho1) V W (after o l) (after_nodup o l)
     (fun m => after_lt l m Hl) (DT_letters V R Ho1)).
  rewrite Ed in HA. destruct HA as (H1 & H2 & _). auto.
Qed.
Lemma lr_linear W0 A U VT l k e : (l < o)%nat -> length W0 = o -> is_mat A (d (chr l)) R -> fac W0 l = A -> is_mat U (d (chr l)) k -> is_mat VT k R ->
  (e ch_star < R)%nat ->
  bigsum (seq 0 (d (chr l))) (fun i => at_ V (map (upd e (chr l) i) (letters chr o)) * el A i (e ch_star)) +
  bigsum (seq 0 (d (chr l))) (fun i => bigsum (seq 0 k) (fun x => at_ V (map (upd e (chr l) i) (letters chr o)) * (el U i x * el VT x (e ch_star)))) =
  bigsum (seq 0 (d (chr l))) (fun i => at_ V (map (upd e (chr l) i) (letters chr o)) * el (madd A (mmul U VT)) i (e ch_star)).
Proof.
  intros Hl HL HA EA HU HV He. rewrite <- (bigsum_add RL). apply bigsum_ext. intros i Hi. apply in_seq in Hi.
  rewrite (el_madd _ _ (d (chr l)) R) by (auto; lia). rewrite (el_mmul U VT (d (chr l)) k R) by (auto; lia).
  rewrite (bigsum_mul_l RL). ring.
Qed.
Lemma rep_partial' W l B : (l < o)%nat -> length W = o -> wf B -> lens B = map d (sstr (after o l)) ->
  (forall e, inr d (sstr (after o l)) e -> at_ B (map e (sstr (after o l))) =
    bigsum (seq 0 (d (chr l))) (fun i => at_ V (map (upd e (chr l) i) (letters chr o)) * el (fac W l) i (e ch_star))) ->
  B = partial_mttkrp V W (after o l) R.
Proof.
  intros Hl HL H1 H2 H3. rewrite <- Ed. apply (rep_partial RL d chr ch_star o (DT_inj V Ho1) (DT_fresh V Ho1) V W (after o l) [l]).
  - split; [auto|split; [auto|]]. intros e He. fold (sstr (after o l)) in He |- *. rewrite H3 by auto.
    rewrite (PM_cons RL d chr ch_star o (DT_inj V Ho1) (DT_fresh V Ho1)) by (auto; intros m []).
    apply bigsum_ext. intros i _. rewrite (PM_nil RL). auto.
  - apply after_nodup.
  - intros m; apply after_lt; auto.
  - apply (DT_letters V R Ho1).
  - apply NoDup_Permutation; [repeat constructor; auto|apply outside_nodup|]. intros x. cbn [In]. rewrite outside_in, after_in by auto. lia.
Qed.
Lemma sstr_nodup ms : NoDup ms -> (forall m, In m ms -> m < o)%nat -> NoDup (sstr ms).
Proof.
  intros Hd H. unfold sstr. apply NoDup_app_intro.
  - apply NoDup_map_inj; auto. intros x y Hx Hy. apply (DT_inj V Ho1); apply H; auto.
  - repeat constructor. auto.
  - intros x Hx [<-|[]]. apply in_map_iff in Hx as (y & E & Hy). apply (DT_fresh V Ho1 y); auto.
Qed.
Lemma letters_in m : (m < o)%nat -> In (chr m) (letters chr o).
Proof. intros. apply in_map, in_seq. lia. Qed.
Lemma after_sstr_in l c : (l < o)%nat -> In c (sstr (after o l)) <-> (In c (letters chr o) /\ c <> chr l) \/ c = ch_star.
Proof.
  intros Hl. unfold sstr. rewrite in_app_iff. split.
  - intros [H|[<-|[]]]; auto. left. apply in_map_iff in H as (x & <- & Hx). apply after_in in Hx; auto.
    split; [apply letters_in; tauto|]. intros E. apply (DT_inj V Ho1) in E; tauto.
  - intros [[H H2]|H]; [|right; left; auto]. left. apply in_map_iff in H as (x & <- & Hx). apply in_map. apply after_in; auto. apply in_seq in Hx. split; [lia|]. intros ->. auto.
Qed.

Theorem cached_add W0 U VT l k : (l < o)%nat -> factors_ok V W0 R -> is_mat U (d (chr l)) k -> is_mat VT k R ->
  assign true (partial_mttkrp V W0 (after o l) R) (sstr (after o l))
    [prodt [(V, letters chr o); (U, [chr l; ch_amp]); (VT, [ch_amp; ch_star])]] =
  Ok (partial_mttkrp V (setf W0 l (madd (fac W0 l) (mmul U VT))) (after o l) R).
Proof.
  intros Hl HW HU HV. set (T := partial_mttkrp V W0 (after o l) R). set (sC := sstr (after o l)).
  destruct (partial_shape W0 l Hl) as [HT1 HT2]. fold T in HT1, HT2. fold sC in HT1.
  assert (Hna : ~ In ch_amp sC) by (apply amp_notin; intros m; apply after_lt; auto).
  set (fg := [((V, letters chr o), fun e : env => at_ V (map e (letters chr o)));
              ((U, [chr l; ch_amp]), fun e : env => el U (e (chr l)) (e ch_amp)); ((VT, [ch_amp; ch_star]), fun e : env => el VT (e ch_amp) (e ch_star))]).
  assert (Hl30 : (l <= 30)%nat) by lia.
  assert (Hfg : fgrep (dk k) fg).
  { repeat constructor; cbn [fst snd]; try reflexivity.
    - apply HW.
    - rewrite dk_ext by apply letters_no_amp. apply (DT_letters V R Ho1).
    - apply HU.
    - cbn [map]. rewrite dk_chr, dk_amp by auto. apply HU.
    - apply HV.
    - cbn [map]. rewrite dk_star, dk_amp by auto. apply HV. }
  destruct (assign_rep (dk k) true T sC [mkTerm n1 (map fst fg)]) as (B & E & HB1 & HB2 & HB3).
  - apply sstr_nodup; [apply after_nodup|]. intros m; apply after_lt; auto.
  - rewrite dk_ext by auto. auto.
  - intros t [<-|[]]. apply fgrep_fit. auto.
  - change [prodt [(V, letters chr o); (U, [chr l; ch_amp]); (VT, [ch_amp; ch_star])]] with [mkTerm n1 (map fst fg)]. rewrite E. f_equal.
    assert (HLW : length W0 = o) by apply HW.
    apply rep_partial'; auto.
    + rewrite setf_length. auto.
    + rewrite HB2, dk_ext; auto.
    + intros e He. fold sC in He |- *. rewrite HB3 by (apply inr_dk; auto). cbn [tsval fold_left].
      rewrite (tval_rep RL (dk k) sC fg [chr l; ch_amp]); auto.
      * cbn [sumc]. rewrite dk_chr, dk_amp by auto. unfold T. unfold sC. rewrite at_after by auto.
        rewrite fac_setf by lia. rewrite Nat.eqb_refl.
        rewrite <- (lr_linear W0 _ U VT l k e); auto; try lia.
        -- f_equal. rewrite (Rmul_1_l RL). apply bigsum_ext. intros i Hi. apply bigsum_ext. intros x Hx.
           unfold fg. cbn [bigprod fold_right map fst snd]. rewrite !upd_same.
           rewrite (upd_other _ ch_amp x (chr l)) by (apply chr_not_amp; auto). rewrite upd_same.
           rewrite !upd_other by (try apply star_not_amp; intros Ec; apply (DT_fresh V Ho1 l); auto).
           rewrite (map_ext_in (upd (upd e (chr l) i) ch_amp x) (upd e (chr l) i)).
           2:{ intros c Hc. apply upd_other. intros ->. apply letters_no_amp; auto. }
           simpl. ring.
        -- unfold d. rewrite (DT_d V R Ho1) by auto. apply HW; auto.
        -- assert (Hs := He ch_star). unfold d in Hs. rewrite dV_rk in Hs. apply Hs. unfold sC, sstr. apply in_or_app. right. left. auto.
      * constructor; [|repeat constructor; auto]. intros [Ec|[]]. symmetry in Ec. revert Ec. apply chr_not_amp; auto.
      * intros c. cbn [In fg map fst snd flat_map]. rewrite !in_app_iff. cbn [In]. unfold sC. rewrite after_sstr_in by auto. split.
        -- intros [<-|[<-|[]]]; (split; [tauto|]); intros [[H1 H2]|H1]; auto; try discriminate.
           ++ apply (DT_fresh V Ho1 l); auto.
           ++ apply letters_no_amp; auto.
        -- intros [H1 H2]. destruct (Z.eq_dec c (chr l)) as [->|Hc]; auto. destruct (Z.eq_dec c ch_amp) as [->|Hc2]; auto.
           exfalso. apply H2. destruct H1 as [H1|[[H1|[H1|[]]]|[[H1|[H1|[]]]|[]]]]; try subst c; auto; tauto.
      * apply inr_dk; auto.
      * intros q [<-|[<-|[<-|[]]]]; cbn [snd]; [|apply el_env|apply el_env]. intros e1 e2 H12. f_equal. apply map_ext. auto.
Qed.

(** the same in two contractions through a temporary whose mode l carries the letter & *)
Definition alet (l : nat) : str := map (fun m => if Nat.eqb m l then ch_amp else chr m) (seq 0 o).
Lemma alet_in l c : (l < o)%nat -> In c (alet l) <-> (In c (letters chr o) /\ c <> chr l) \/ c = ch_amp.
Proof.
  intros Hl. unfold alet. split.
  - intros H. apply in_map_iff in H as (x & E & Hx). apply in_seq in Hx. destruct (Nat.eqb_spec x l) as [Ex|Hn]; [right; auto|left]. subst c.
    split; [apply letters_in; lia|]. intros E. apply (DT_inj V Ho1) in E; lia.
  - intros [[H H2]| ->]; apply in_map_iff.
    + apply in_map_iff in H as (x & <- & Hx). exists x. split; auto. destruct (Nat.eqb_spec x l); auto. subst x. tauto.
    + exists l. rewrite Nat.eqb_refl. split; auto. apply in_seq. lia.
Qed.
Lemma alet_nodup l : NoDup (alet l).
Proof.
  unfold alet. apply NoDup_map_inj; [|apply seq_NoDup]. intros x y Hx Hy. apply in_seq in Hx, Hy.
  destruct (Nat.eqb_spec x l), (Nat.eqb_spec y l); intros E; try congruence.
  - exfalso. symmetry in E. revert E. apply chr_not_amp. lia.
  - exfalso. revert E. apply chr_not_amp. lia.
  - apply (DT_inj V Ho1) in E; lia.
Qed.
Lemma alet_env (e : env) l : (l < o)%nat -> (map e (alet l) : list nat) = map (upd e (chr l) (e ch_amp)) (letters chr o).
Proof.
  intros Hl. unfold alet, letters. rewrite !map_map. apply map_ext_in. intros m Hm. apply in_seq in Hm.
  destruct (Nat.eqb_spec m l) as [->|Hn]; [rewrite upd_same; auto|]. rewrite upd_other; auto. intros E. apply (DT_inj V Ho1) in E; lia.
Qed.
Lemma alet_dims k l : (l < o)%nat -> map (dk k) (alet l) = lset (lens V) l k.
Proof.
  intros Hl. unfold alet. rewrite map_map. apply nth_ext with (d:=0%nat) (d':=0%nat); rewrite map_length, seq_length.
  - rewrite lset_length. reflexivity.
  - intros i Hi. rewrite (nth_map_lt _ _ _ 0%nat) by (rewrite seq_length; auto). rewrite seq_nth by auto. cbn [Nat.add].
    rewrite lset_nth by (apply Hl). destruct (Nat.eqb_spec i l) as [->|Hn]; auto. rewrite dk_chr by lia. apply (DT_d V R Ho1). auto.
Qed.
Theorem cached_two W0 U VT l k : (l < o)%nat -> factors_ok V W0 R -> is_mat U (d (chr l)) k -> is_mat VT k R ->
  exists temp, assign false (zeros (lset (lens V) l k)) (alet l) [prodt [(V, letters chr o); (U, [chr l; ch_amp])]] = Ok temp /\
  assign false (partial_mttkrp V W0 (after o l) R) (sstr (after o l))
    [mkTerm n1 [(partial_mttkrp V W0 (after o l) R, sstr (after o l))]; mkTerm n1 [(VT, [ch_amp; ch_star]); (temp, alet l)]] =
  Ok (partial_mttkrp V (setf W0 l (madd (fac W0 l) (mmul U VT))) (after o l) R).
Proof.
  intros Hl HW HU HV. set (T := partial_mttkrp V W0 (after o l) R). set (sC := sstr (after o l)).
  destruct (partial_shape W0 l Hl) as [HT1 HT2]. fold T in HT1, HT2. fold sC in HT1.
  assert (Hna : ~ In ch_amp sC) by (apply amp_notin; intros m; apply after_lt; auto).
  assert (Hl30 : (l <= 30)%nat) by lia.
  assert (HLW : length W0 = o) by apply HW.
  set (fg := [((V, letters chr o), fun e : env => at_ V (map e (letters chr o)));
              ((U, [chr l; ch_amp]), fun e : env => el U (e (chr l)) (e ch_amp))]).
  assert (Hfg : fgrep (dk k) fg).
  { repeat constructor; cbn [fst snd]; try reflexivity.
    - apply HW.
    - rewrite dk_ext by apply letters_no_amp. apply (DT_letters V R Ho1).
    - apply HU.
    - cbn [map]. rewrite dk_chr, dk_amp by auto. apply HU. }
  destruct (contract_rep RL (dk k) (zeros (lset (lens V) l k)) (alet l) fg [chr l]) as (temp & E & HB).
  - apply alet_nodup.
  - rewrite alet_dims; auto.
  - auto.
  - repeat constructor; auto.
  - intros c. cbn [In fg map fst snd flat_map]. rewrite !in_app_iff. cbn [In]. rewrite alet_in by auto. split.
    + intros [<-|[]]. split; auto. intros [[_ H]|H]; auto. revert H. apply chr_not_amp. auto.
    + intros [H1 H2]. left. destruct (Z.eq_dec c (chr l)) as [->|Hc]; auto. exfalso. apply H2. destruct H1 as [H1|[[H1|[H1|[]]]|[]]]; auto. congruence.
  - intros q [<-|[<-|[]]]; cbn [snd]; [|apply el_env]. intros e1 e2 H12. f_equal. apply map_ext. auto.
  - exists temp. split; [exact E|].
    set (g := fun e : env => bigsum (seq 0 (d (chr l))) (fun i => at_ V (map (upd e (chr l) i) (letters chr o)) * el U i (e ch_amp))).
    assert (HB' : rep (dk k) temp (alet l) g).
    { eapply rep_ext; [exact HB|]. intros e He. unfold g. cbn [sumc]. rewrite dk_chr by auto. apply bigsum_ext. intros i Hi.
      unfold fg. cbn [bigprod fold_right map fst snd]. rewrite upd_same. rewrite upd_other by (intros Ec; apply (chr_not_amp l); auto). simpl. ring. }
    assert (Hg : envext g).
    { intros e1 e2 H12. unfold g. apply bigsum_ext. intros i Hi. rewrite H12. f_equal. f_equal. apply map_ext. intros c. unfold upd. rewrite H12. auto. }
    set (fg2 := [((VT, [ch_amp; ch_star]), fun e : env => el VT (e ch_amp) (e ch_star)); ((temp, alet l), g)]).
    set (fg1 := [((T, sC), fun e : env => at_ T (map e sC))]).
    assert (Hfg2 : fgrep (dk k) fg2).
    { constructor; [|constructor; [|constructor]]; cbn [fst snd]; auto. apply (el_rep (dk k) VT ch_amp ch_star k R); auto. discriminate. }
    assert (HTd : lens T = map (dk k) sC) by (rewrite dk_ext; auto).
    assert (HsC : NoDup sC) by (apply sstr_nodup; [apply after_nodup|]; intros m; apply after_lt; auto).
    assert (Hfg1 : fgrep (dk k) fg1) by (constructor; [|constructor]; split; [|split]; auto).
    destruct (assign_rep (dk k) false T sC [mkTerm n1 (map fst fg1); mkTerm n1 (map fst fg2)]) as (B & EB & HB1 & HB2 & HB3); auto.
    { intros t [<-|[<-|[]]]; apply fgrep_fit; auto. }
    change [mkTerm n1 [(T, sC)]; mkTerm n1 [(VT, [ch_amp; ch_star]); (temp, alet l)]] with [mkTerm n1 (map fst fg1); mkTerm n1 (map fst fg2)].
    rewrite EB. f_equal. apply rep_partial'; auto.
    + rewrite setf_length. auto.
    + rewrite HB2, dk_ext; auto.
    + intros e He. fold sC in He |- *. rewrite HB3 by (apply inr_dk; auto). cbn [tsval fold_left].
      rewrite (tval_rep RL (dk k) sC fg1 []); auto.
      * rewrite (tval_rep RL (dk k) sC fg2 [ch_amp]); auto.
        -- cbn [sumc]. rewrite dk_amp. unfold fg1. cbn [bigprod fold_right map fst snd]. unfold T, sC. rewrite at_after by auto.
           rewrite fac_setf by lia. rewrite Nat.eqb_refl. rewrite <- (lr_linear W0 _ U VT l k e); auto; try lia.
           ++ f_equal; [simpl; ring|]. rewrite (Rmul_1_l RL). rewrite (bigsum_swap RL). apply bigsum_ext. intros x Hx.
              unfold fg2. cbn [bigprod fold_right map fst snd]. rewrite upd_same, upd_other by (apply star_not_amp).
              unfold g. simpl. rewrite upd_same. rewrite (Rmul_comm RL (bigsum _ _) n1), (Rmul_1_l RL), <- (bigsum_mul_l RL). apply bigsum_ext. intros i Hi.
              rewrite (map_ext_in (upd (upd e ch_amp x) (chr l) i) (upd e (chr l) i)); [ring|].
              intros c Hc. unfold upd. destruct (Z.eqb_spec c (chr l)); auto. destruct (Z.eqb_spec c ch_amp); auto. subst c. exfalso. apply letters_no_amp; auto.
           ++ unfold d. rewrite (DT_d V R Ho1) by auto. apply HW; auto.
           ++ assert (Hs := He ch_star). unfold d in Hs. rewrite dV_rk in Hs. apply Hs. unfold sC, sstr. apply in_or_app. right. left. auto.
        -- repeat constructor; auto.
        -- intros c. cbn [In fg2 map fst snd flat_map]. rewrite !in_app_iff. cbn [In]. rewrite alet_in by auto. unfold sC. rewrite after_sstr_in by auto. split.
           ++ intros [<-|[]]. split; auto. intros [[H _]|H]; [|discriminate]. apply letters_no_amp; auto.
           ++ intros [H1 H2]. destruct (Z.eq_dec c ch_amp) as [->|Hc]; auto. exfalso. apply H2.
              destruct H1 as [[H1|[H1|[]]]|[[[H1 H3]|H1]|[]]]; auto; congruence.
        -- apply inr_dk; auto.
        -- intros q [<-|[<-|[]]]; cbn [snd]; [apply el_env|auto].
      * constructor.
      * intros c. cbn [In fg1 map fst snd flat_map]. rewrite app_nil_r. tauto.
      * apply inr_dk; auto.
      * intros q [<-|[]]; cbn [snd]. intros e1 e2 H12. f_equal. apply map_ext. auto.
Qed.
End C.

(** ** the truncated decompositions and the low-rank update *)
Section L.
Context {N : num} (RL : ring_laws N) (LA : lapack N).
Let RT : ring_theory (@n0 N) n1 nadd nmul nsub nopp (@eq N) := RL.
Add Ring Nring2 : RT.
Local Open Scope num_scope.
Hypothesis Hsh : tri_shaped (cholesky LA) (solve_tri LA).
Hypothesis Hlow : low_shaped (svd LA) (qr_q LA) (rnd LA).

Lemma randomized_svd_ok X seed k r c : is_mat X r c -> (k <= r)%nat -> (k <= c)%nat ->
  randomized_svd LA X seed k 1 = Ok (rsvd (svd LA) (qr_q LA) (rnd LA) seed X k) /\
  let '(U, s, VT) := rsvd (svd LA) (qr_q LA) (rnd LA) seed X k in is_mat U r k /\ lens s = [k] /\ wf s /\ is_mat VT k c.
Proof.
  intros HX Hr Hc. destruct Hlow as (H1 & H2 & H3). unfold randomized_svd, rsvd. rewrite (is_mat_ncol _ _ _ HX), (is_mat_nrow _ _ _ HX).
  assert (HQ0 : is_mat (qr_q LA (rnd LA seed [c; k])) c k) by (apply H2; auto). set (Q0 := qr_q LA (rnd LA seed [c; k])) in *.
  unfold for_. cbn [loop Nat.sub bind].
  assert (Ez : mmul (mmul (mtrans X) X) Q0 = mk c k (fun j q => bigsum (seq 0 c) (fun l => bigsum (seq 0 r) (fun i => el X i j * el X i l) * el Q0 l q))).
  { apply mat_mk; [eapply mmul_mat; eauto; eapply mmul_mat; eauto; apply mtrans_mat; auto|]. intros i j Hi Hj.
    rewrite (el_mmul _ Q0 c c k) by (auto; eapply mmul_mat; eauto; apply mtrans_mat; auto). apply bigsum_ext. intros x Hx. apply in_seq in Hx.
    rewrite (el_mmul _ X c r c) by (auto; try lia; apply mtrans_mat; auto). f_equal. apply bigsum_ext. intros y Hy. apply in_seq in Hy.
    rewrite (el_mtrans X r c) by (auto; lia). auto. }
  assert (E1 : assign false (rnd LA seed [c; k]) [ch_j; ch_r] [prodt [(X, sij); (X, [ch_i; ch_l]); (Q0, [ch_l; ch_r])]] = Ok (mmul (mmul (mtrans X) X) Q0)).
  { rewrite Ez.
    set (dd := fun z : Z => if Z.eqb z ch_i then r else if Z.eqb z ch_r then k else c).
    change (@mk N c k) with (@mk N (dd ch_j) (dd ch_r)). apply (assign_mat dd).
    - discriminate.
    - apply H3.
    - intros t [<-|[]] p [<-|[<-|[<-|[]]]]; cbn [fst snd map]; [apply HX|apply HX|apply HQ0].
    - intros i j Hi Hj. cbn [tsval fold_left].
      set (fg := [((X, sij), fun e : env => el X (e ch_i) (e ch_j)); ((X, [ch_i; ch_l]), fun e : env => el X (e ch_i) (e ch_l));
        ((Q0, [ch_l; ch_r]), fun e : env => el Q0 (e ch_l) (e ch_r))]).
      change (prodt [(X, sij); (X, [ch_i; ch_l]); (Q0, [ch_l; ch_r])]) with (mkTerm n1 (map fst fg)).
      rewrite (tval_rep RL dd [ch_j; ch_r] fg [ch_l; ch_i]).
      + cbn [sumc]. rewrite (Rmul_1_l RL). apply bigsum_ext. intros l Hl. rewrite <- (bigsum_mul_r RL). apply bigsum_ext. intros x Hx.
        cbn [bigprod fold_right map fst snd]. unfold eab, upd. cbn. ring.
      + repeat constructor; cbn [fst snd]; try apply HX; try apply HQ0.
      + repeat constructor; cbn; intuition discriminate.
      + intros z. cbn. intuition (subst; try discriminate; auto).
      + intros z [<-|[<-|[]]]; unfold eab, upd; cbn; auto.
      + intros q [<-|[<-|[<-|[]]]]; cbn [snd]; apply el_env. }
  rewrite E1. cbn [bind].
  assert (HQ : is_mat (qr_q LA (mmul (mmul (mtrans X) X) Q0)) c k) by (apply H2; auto; rewrite Ez; apply mk_mat).
  set (Q := qr_q LA (mmul (mmul (mtrans X) X) Q0)) in *.
  rewrite (assign_mm RL _ X Q r c k) by (try reflexivity; first [apply HX|apply HQ]). cbn [bind]. rewrite <- (mmul_mk X Q r c k) by auto.
  assert (HB : is_mat (mmul X Q) r k) by (eapply mmul_mat; eauto).
  specialize (H1 (mmul X Q) r k k HB Hr ltac:(lia)). destruct (svd LA (mmul X Q) k) as [[U s] VT]. destruct H1 as (HU & Hs & Hw & HVT).
  assert (E2 : assign false (zeros [k; c]) sij [prodt [(VT, sik); (Q, sjk)]] = Ok (mmul VT (mtrans Q))).
  { rewrite (mmul_mk VT (mtrans Q) k k c) by (auto; apply mtrans_mat; auto).
    change (@mk N k c) with (@mk N (d3 k c k ch_i) (d3 k c k ch_j)). apply (assign_mat (d3 k c k)).
    - discriminate.
    - reflexivity.
    - intros t [<-|[]] p [<-|[<-|[]]]; cbn [fst snd map]; [apply HVT|apply HQ].
    - intros i j Hi Hj. cbn [tsval fold_left].
      set (fg := [((VT, sik), fun e : env => el VT (e ch_i) (e ch_k)); ((Q, sjk), fun e : env => el Q (e ch_j) (e ch_k))]).
      change (prodt [(VT, sik); (Q, sjk)]) with (mkTerm n1 (map fst fg)).
      rewrite (tval_rep RL (d3 k c k) [ch_i; ch_j] fg [ch_k]).
      + cbn [sumc]. rewrite (Rmul_1_l RL). apply bigsum_ext. intros l Hl. apply in_seq in Hl. cbn in Hi, Hj, Hl. rewrite (el_mtrans Q c k) by (auto; lia).
        cbn [bigprod fold_right map fst snd]. unfold eab, upd. cbn. ring.
      + repeat constructor; cbn [fst snd]; try apply HVT; try apply HQ.
      + repeat constructor; cbn; intuition discriminate.
      + intros z. cbn. intuition (subst; try discriminate; auto).
      + intros z [<-|[<-|[]]]; unfold eab, upd; cbn; auto.
      + intros q [<-|[<-|[]]]; cbn [snd]; apply el_env. }
  rewrite E2. cbn [bind]. split; auto. repeat split; auto; try apply HU; try apply tabulate_wf; eapply mmul_mat; eauto; apply mtrans_mat; auto.
Qed.

Context (randomised : bool) (k : nat).
Let trunc := trunc_of (svd LA) (qr_q LA) (rnd LA) randomised.
Lemma rank_update_ok M A S seed r R : is_mat M r R -> is_mat A r R -> is_mat S R R -> (k <= r)%nat -> (k <= R)%nat ->
  get_rankR_update_cholesky LA k M A S (if randomised then Some seed else None) = Ok (lr_factors trunc (cholesky LA) (solve_tri LA) k seed M A S) /\
  let '(U, s, VT) := lr_factors trunc (cholesky LA) (solve_tri LA) k seed M A S in is_mat U r k /\ lens s = [k] /\ wf s /\ is_mat VT k R.
Proof.
  intros HM HA HS Hr HR. destruct Hsh as [T1 T2]. assert (HL := T1 S R HS). unfold get_rankR_update_cholesky, lr_factors.
  unfold matrixDot. rewrite (is_mat_nrow _ _ _ HA), (is_mat_ncol _ _ _ HS). rewrite (assign_mm RL _ A S r R R) by (try reflexivity; first [apply HA|apply HS]). cbn [bind].
  rewrite <- (mmul_mk A S r R R) by auto. assert (HAS : is_mat (mmul A S) r R) by (eapply mmul_mat; eauto).
  rewrite (assign_lin RL (mmul A S) M (mmul A S) n1 (- n1) r R) by (first [apply HAS|apply HM]). cbn [bind].
  replace (mk r R (fun i j => n1 * el M i j + - n1 * el (mmul A S) i j)) with (msub M (mmul A S)).
  2:{ apply mat_mk; [apply msub_mat'; auto|]. intros i j Hi Hj. rewrite (el_msub _ _ r R) by auto. ring. }
  set (L := cholesky LA S) in *. assert (HX : is_mat (solve_tri LA (msub M (mmul A S)) L true false true) r R) by (apply T2; auto; apply msub_mat'; auto).
  set (X := solve_tri LA _ L true false true) in *. unfold trunc, trunc_of. destruct randomised.
  - destruct (randomized_svd_ok X seed k r R HX Hr HR) as [E H]. rewrite E. cbn [bind]. destruct (rsvd _ _ _ seed X k) as [[U s] VT].
    split; auto. destruct H as (H1 & H2 & H3 & H4). auto.
  - destruct Hlow as (H1 & _). specialize (H1 X r R k HX Hr HR). cbn [bind]. destruct (svd LA X k) as [[U s] VT]. split; auto. destruct H1 as (H1 & H2 & H3 & H4). auto.
Qed.
End L.

Section U.
Context {N : num} (RL : ring_laws N).
Let RT : ring_theory (@n0 N) n1 nadd nmul nsub nopp (@eq N) := RL.
Add Ring Nring3 : RT.
Local Open Scope num_scope.
Lemma usv_mk (U s VT : tensor N) k r R : is_mat U r k -> is_mat VT k R -> is_mat (usv k U s VT) r R /\
  forall i j, (i < r)%nat -> (j < R)%nat -> el (usv k U s VT) i j = bigsum (seq 0 k) (fun x => el U i x * at_ s [x] * el VT x j).
Proof.
  intros HU HV. unfold usv. assert (HUs : is_mat (mmul U (mdiag k (fun i => at_ s [i]))) r k) by (eapply mmul_mat; eauto; apply mdiag_mat).
  split; [eapply mmul_mat; eauto|]. intros i j Hi Hj. rewrite (el_mmul _ VT r k R) by auto. apply bigsum_ext. intros x Hx. apply in_seq in Hx.
  rewrite (mmul_diag_r RL U r k) by auto. rewrite el_mk by (auto; lia). auto.
Qed.
Lemma usv_assign (acc : bool) (C A U s VT : tensor N) k r R : is_mat A r R -> is_mat U r k -> lens s = [k] -> wf s -> is_mat VT k R ->
  lens C = [r; R] -> (acc = true -> C = A) ->
  assign acc C sij ((if acc then [] else [mkTerm n1 [(A, sij)]]) ++ [prodt [(U, sik); (s, [ch_k]); (VT, skj)]]) = Ok (madd A (usv k U s VT)).
Proof.
  intros HA HU Hs Hw HV HC Hacc. destruct (usv_mk U s VT k r R HU HV) as [HX HE].
  rewrite (mat_mk (madd A (usv k U s VT)) r R (fun i j => el A i j + bigsum (seq 0 k) (fun x => el U i x * at_ s [x] * el VT x j))).
  2:{ apply madd_mat. auto. }
  2:{ intros i j Hi Hj. rewrite (el_madd _ _ r R) by auto. rewrite HE; auto. }
  set (fg := [((U, sik), fun e : env => el U (e ch_i) (e ch_k)); ((s, [ch_k]), fun e : env => at_ s [e ch_k]); ((VT, skj), fun e : env => el VT (e ch_k) (e ch_j))]).
  set (fg1 := [((A, sij), fun e : env => el A (e ch_i) (e ch_j))]).
  assert (Hfg : fgrep (d3 r R k) fg).
  { repeat constructor; cbn [fst snd]; first [apply HU|apply HV|auto]. }
  assert (Hfg1 : fgrep (d3 r R k) fg1).
  { repeat constructor; cbn [fst snd]; apply HA. }
  change [prodt [(U, sik); (s, [ch_k]); (VT, skj)]] with [mkTerm n1 (map fst fg)]. change [mkTerm n1 [(A, sij)]] with [mkTerm n1 (map fst fg1)].
  assert (Hv : forall i j, (i < r)%nat -> (j < R)%nat -> tval (d3 r R k) [ch_i; ch_j] (mkTerm n1 (map fst fg)) (eab ch_i ch_j i j) = bigsum (seq 0 k) (fun x => el U i x * at_ s [x] * el VT x j)).
  { intros i j Hi Hj. rewrite (tval_rep RL (d3 r R k) [ch_i; ch_j] fg [ch_k]); auto.
    - cbn [sumc]. rewrite (Rmul_1_l RL). apply bigsum_ext. intros x Hx. unfold fg. cbn [bigprod fold_right map fst snd]. unfold eab, upd. cbn. ring.
    - repeat constructor; cbn; intuition discriminate.
    - intros z. cbn. intuition (subst; try discriminate; auto).
    - intros z [<-|[<-|[]]]; unfold eab, upd; cbn; auto.
    - intros q [<-|[<-|[<-|[]]]]; cbn [snd]; intros e1 e2 H12; rewrite ?H12; auto. }
  change (@mk N r R) with (@mk N (d3 r R k ch_i) (d3 r R k ch_j)). apply (assign_mat (d3 r R k)).
  - discriminate.
  - auto.
  - intros t Ht. apply in_app_or in Ht as [Ht|[<-|[]]]; [|apply fgrep_fit; auto]. destruct acc; [destruct Ht|]. destruct Ht as [<-|[]]. apply fgrep_fit; auto.
  - intros i j Hi Hj. change (d3 r R k ch_i) with r in Hi. change (d3 r R k ch_j) with R in Hj. destruct acc; cbn [app tsval fold_left].
    + rewrite Hv by auto. rewrite Hacc; auto.
    + rewrite Hv by auto. f_equal. rewrite (tval_rep RL (d3 r R k) [ch_i; ch_j] fg1 []); auto.
      * cbn [sumc]. unfold fg1. cbn [bigprod fold_right map fst snd]. unfold eab, upd. cbn. ring.
      * constructor.
      * intros z. cbn. intuition.
      * intros z [<-|[<-|[]]]; unfold eab, upd; cbn; auto.
      * intros q [<-|[]]; cbn [snd]. apply el_env.
Qed.

Context (LA : lapack N) (V : tensor N) (R : nat) (lambda : N).
Let o := order V.
Hypothesis Hsh : tri_shaped (cholesky LA) (solve_tri LA).
Hypothesis Hlow : low_shaped (svd LA) (qr_q LA) (rnd LA).
Context (rs : bool) (k : nat).
Hypothesis HkR : (k <= R)%nat.
Hypothesis HkV : forall n, (n < o)%nat -> (k <= nth n (lens V) 0)%nat.
Let trunc := trunc_of (svd LA) (qr_q LA) (rnd LA) rs.
Let inc := lr_inc trunc (cholesky LA) (solve_tri LA) k.
Let solve := chol_solve (cholesky LA) (solve_tri LA).
(** the low-rank data fit mode n *)
Definition low_fit (lo : lowrank N) (n : nat) : Prop :=
  is_mat (lU lo) (nth n (lens V) 0%nat) k /\ lens (lS lo) = [k] /\ wf (lS lo) /\ is_mat (lVT lo) k R.
Definition low_val (lo : lowrank N) : tensor N := usv k (lU lo) (lS lo) (lVT lo).
Theorem lr_update_ok (acc : bool) ref st lo n : (2 <= o)%nat -> ost_ok V R st -> (n < o)%nat -> (n < length ref)%nat ->
  is_mat (fac ref n) (nth n (lens V) 0%nat) R -> (acc = true -> ref = oW st) ->
  let M := mttkrp V (oW st) n R in let S := als_lhs lambda (oW st) R n in
  exists st' lo', lr_update LA k rs acc o (mscal lambda (mid R)) M n ref st lo = Ok (st', lo') /\ ost_ok V R st' /\
    oW st' = setf (oW st) n (madd (fac ref n) (inc (lseed lo) M (fac ref n) S)) /\
    oG st' = setf (oG st) n (msub (mmul (fac (oW st) n) S) M) /\ lseed lo' = Datatypes.S (lseed lo) /\ low_fit lo' n /\
    inc (lseed lo) M (fac ref n) S = low_val lo'.
Proof.
  intros H2 (HW & HG & HS) Hn Hnr HA Hacc M Sm. unfold lr_update. rewrite (update_S_ok RL V R lambda) by auto. cbn [bind].
  rewrite (F_lget LA V R (oG st) n) by auto. cbn [bind]. rewrite (W_lget LA V R (oW st) n) by auto. cbn [bind]. fold Sm.
  assert (HM : is_mat M (nth n (lens V) 0%nat) R) by apply mttkrp_mat. assert (HSm : is_mat Sm R R) by apply lhs_mat.
  rewrite (gradsub_ok RL _ _ _ _ (nth n (lens V) 0%nat) R); [|auto|auto|apply HW; auto|apply HG; auto].
  cbn [bind]. rewrite lput_ok by (destruct HG as (-> & _); auto). cbn [bind].
  rewrite (lget_ok _ _ tnil) by auto. change (nth n ref tnil) with (fac ref n). cbn [bind].
  destruct (rank_update_ok RL LA Hsh Hlow rs k M (fac ref n) Sm (lseed lo) _ R HM HA HSm (HkV n Hn) HkR) as [E HF].
  rewrite E. clear E. cbn [bind]. unfold inc, lr_inc. fold trunc in HF. unfold trunc.
  fold trunc. destruct (lr_factors trunc (cholesky LA) (solve_tri LA) k (lseed lo) M (fac ref n) Sm) as [[U s] VT] eqn:EF. destruct HF as (F1 & F2 & F3 & F4). cbn [bind].
  assert (EX : (if acc then assign true (fac (oW st) n) sij [prodt [(U, sik); (s, [ch_k]); (VT, skj)]]
     else assign false (fac (oW st) n) sij [mkTerm n1 [(fac ref n, sij)]; prodt [(U, sik); (s, [ch_k]); (VT, skj)]]) = Ok (madd (fac ref n) (usv k U s VT))).
  { assert (HWn : is_mat (fac (oW st) n) (nth n (lens V) 0%nat) R) by (apply HW; auto).
    rewrite <- (usv_assign acc (fac (oW st) n) (fac ref n) U s VT k _ R HA F1 F2 F3 F4); [destruct acc; reflexivity|apply HWn|].
    intros ->. rewrite Hacc; auto. }
  rewrite EX. cbn [bind]. rewrite lput_ok by (destruct HW as (_ & -> & _); auto). cbn [bind].
  eexists _, _. split; [reflexivity|]. cbn [oW oG oS lseed]. split; [|split; [reflexivity|split; [reflexivity|split; [lia|split; [|reflexivity]]]]].
  - split; [apply setf_factors; auto; apply madd_mat; auto|]. split; [|auto].
    apply setf_mats; auto. apply msub_mat'. apply (mmul_mat _ _ _ R R); [apply HW; auto|auto].
  - split; [auto|split; [auto|split; auto]].
Qed.
End U.
