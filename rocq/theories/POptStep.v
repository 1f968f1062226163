(** The optimizer steps are sequences of exact least-squares updates *)
From Coq Require Import List ZArith QArith Lia Bool Arith Permutation Ring.
From Verif Require Import Base Num Tensor Spec Spec3 MCommon MCP MOpt PBase PTensor PSum PMttkrp PPart PMat PKhatri PGrad PMatAlg PResid
  PSolve PTree PDT PDTSweep PALS PropPP PPPSweep POpt POptTree POptEval.
Import ListNotations.
Local Close Scope Q_scope.

Lemma loop_ext {S} (f g : nat -> S -> res S) n i s : (forall j s, i <= j < i + n -> f j s = g j s) -> loop n i f s = loop n i g s.
Proof.
  revert i s. induction n as [|n IH]; intros i s H; cbn; auto. rewrite H by lia. destruct (g i s); cbn; auto. apply IH. intros. apply H. lia.
Qed.
Lemma for_ext {S} (f g : nat -> S -> res S) lo hi s : (forall j s, lo <= j < hi -> f j s = g j s) -> for_ lo hi f s = for_ lo hi g s.
Proof. intros H. unfold for_. apply loop_ext. intros. apply H. lia. Qed.
Lemma bget_app {A} (a x : buf A) i : i < length a -> bget (a ++ x) i = bget a i.
Proof. intros H. unfold bget. rewrite nth_error_app1; auto. Qed.
Lemma lset_app {A} (a x : list A) i v : i < length a -> lset (a ++ x) i v = lset a i v ++ x.
Proof. revert i. induction a; intros i H; cbn in H; [lia|]. destruct i; cbn; auto. f_equal. apply IHa. lia. Qed.
Lemma bset_app {A} (a x : buf A) i v : i < length a -> bset (a ++ x) i v = Ok (lset a i (Some v) ++ x).
Proof. intros H. rewrite bset_ok by (rewrite app_length; lia). rewrite lset_app; auto. Qed.
Lemma swap_char_app a x i j b : i < length a -> j < length a -> swap_char a i j = Ok b -> swap_char (a ++ x) i j = Ok (b ++ x).
Proof.
  intros Hi Hj. unfold swap_char. rewrite !bget_app by auto. destruct (bget a j); [|discriminate]. destruct (bget a i); [|discriminate]. cbn [bind].
  rewrite bset_app, bset_ok by auto. cbn [bind]. rewrite bset_app, bset_ok by (rewrite lset_length; auto). intros E. injection E as <-. auto.
Qed.
Lemma make_index_app o a x rows nc : 1 <= o -> o <= length a -> make_index o (a ++ x) rows nc = make_index o a rows nc.
Proof.
  intros H1 H. unfold make_index. rewrite bget_app by lia.
  rewrite (for_ext _ (fun j st => let '(index, lens_H) := st in c <- bget a j ;; ij <- ix c ;; index <- bset index j ij ;; l <- rows ij ;;
      lens_H <- bset lens_H j l ;; Ok (index, lens_H))); auto.
  intros j [p q] Hj. rewrite bget_app by lia. auto.
Qed.
Lemma lbuf_length o : length (lbuf o) = o + 1.
Proof. unfold lbuf. rewrite map_length, app_length, map_length, seq_length. auto. Qed.

Section S0.
Context {N : num} (RL : ring_laws N).
Local Open Scope num_scope.
Context (V : tensor N) (R : nat) (lambda : N).
Let o := order V.
(** ** the system matrix *)
Lemma gram_index_prefix (Sm : tensor N) W idx x : (2 <= o)%nat -> length idx = (o - 1)%nat ->
  gram_index Sm W o (map Some idx) = gram_index Sm W o (map Some (idx ++ x)).
Proof.
  intros H2 Hi. unfold gram_index. rewrite map_app. rewrite (bget_app (map Some idx)) by (rewrite map_length; lia).
  destruct (bget (map Some idx) 0) as [i0|]; cbn [bind]; auto. destruct (lget W i0); cbn [bind]; auto. destruct (assign _ _ _ _); cbn [bind]; auto.
  apply for_ext. intros j s Hj. rewrite bget_app by (rewrite map_length; lia). auto.
Qed.
Theorem update_S_ok W Sm n : (2 <= o)%nat -> factors_ok V W R -> (n < o)%nat -> lens Sm = [R; R] ->
  update_S o (mscal lambda (mid R)) W Sm n = Ok (als_lhs lambda W R n).
Proof.
  intros H2 HW Hn HS. unfold update_S.
  destruct (fill_pair_ok (repeat 0%nat (o - 1)) 0 n 0) as (ix1 & E1 & L1 & P1); [rewrite repeat_length; lia|].
  rewrite repeat_length in L1. cbn [Nat.add] in E1, P1. rewrite E1. cbn [bind].
  destruct (fill_pair_ok ix1 (n + 1) (o - (n + 1)) n) as (ix2 & E2 & L2 & P2); [lia|].
  replace (n + 1 + (o - (n + 1)))%nat with o in E2 by lia. rewrite E2. cbn [bind].
  rewrite (gram_index_prefix Sm W ix2 [n]) by lia.
  assert (Hix : ix2 = seq 0 n ++ seq (n + 1) (o - 1 - n)).
  { apply nth_list_ext.
    - rewrite app_length, !seq_length. lia.
    - intros k Hk. rewrite P2, P1. destruct (Nat.lt_ge_cases k n).
      + rewrite app_nth1 by (rewrite seq_length; auto). rewrite seq_nth by auto. 
        destruct (Nat.leb_spec n k), (Nat.ltb_spec k (n + (o - (n + 1)))), (Nat.leb_spec 0 k), (Nat.ltb_spec k n); cbn [andb]; try lia.
      + rewrite app_nth2 by (rewrite seq_length; auto). rewrite seq_length, seq_nth by lia.
        destruct (Nat.leb_spec n k), (Nat.ltb_spec k (n + (o - (n + 1)))); cbn [andb]; try lia. }
  rewrite (gram_index_ok RL Sm W o R (ix2 ++ [n]) n); auto.
  - cbn [bind]. rewrite (addto_madd RL _ _ R R); [reflexivity|apply hgram_mat|apply mscal_mat, mdiag_mat].
  - apply HW.
  - apply (factors_cols V W R). auto.
  - subst ix2. apply NoDup_Permutation.
    + apply NoDup_app_intro; [apply NoDup_app_intro; try apply seq_NoDup|repeat constructor; auto|].
      * intros x Hx Hy. apply in_seq in Hx, Hy. lia.
      * intros x Hx [<-|[]]. rewrite in_app_iff, !in_seq in Hx. lia.
    + apply seq_NoDup.
    + intros x. rewrite !in_app_iff, !in_seq. cbn. lia.
  - rewrite app_nth2 by lia. replace (o - 1 - length ix2)%nat with 0%nat by lia. auto.
Qed.

End S0.

Section P.
Context {N : num} (RL : ring_laws N) (LA : lapack N).
Local Open Scope num_scope.
Context (V : tensor N) (R : nat) (lambda : N).
Let o := order V.
Hypothesis Hsh : tri_shaped (cholesky LA) (solve_tri LA).
Let solve := chol_solve (cholesky LA) (solve_tri LA).

Lemma chol_solve_ok M (S : tensor N) r : is_mat M r R -> is_mat S R R -> cholesky_solve LA M S = Ok (solve M S) /\ is_mat (solve M S) r R.
Proof.
  intros HM HS. destruct Hsh as [H1 H2]. assert (HL := H1 S R HS). split.
  - unfold cholesky_solve. set (L := cholesky LA S) in *.
    assert (exists T0, assign false L sik [prodt [(L, sij); (L, skj)]] = Ok T0) as [T0 ->]; [|reflexivity].
    destruct (assign_rep (fun _ => R) false L sik [prodt [(L, sij); (L, skj)]]) as (B & E & _).
    + repeat constructor; simpl; unfold ch_i, ch_k; intuition discriminate.
    + destruct HL as [E _]. rewrite E. reflexivity.
    + destruct HL as [E _]. intros t [<-|[]] p [<-|[<-|[]]]; simpl; auto.
    + eauto.
  - unfold solve, chol_solve. apply (H2 _ _ r R); auto.
Qed.

(** ** one update *)
Definition ost_ok (st : opt_st N) : Prop := factors_ok V (oW st) R /\ mats_ok V (oG st) R /\ lens (oS st) = [R; R].
Definition owg (st : opt_st N) := (oW st, oG st).
Let upd := ls_update solve lambda V R.
Theorem opt_update_ok st n : (2 <= o)%nat -> ost_ok st -> (n < o)%nat ->
  exists st', opt_update LA o (mscal lambda (mid R)) (mttkrp V (oW st) n R) n st = Ok st' /\ ost_ok st' /\ owg st' = upd (owg st) n /\
     (exists X, oW st' = setf (oW st) n X) /\ oS st' = als_lhs lambda (oW st) R n.
Proof.
  intros H2 (HW & HG & HS) Hn. unfold opt_update. rewrite (update_S_ok RL V R lambda) by auto. cbn [bind].
  rewrite (F_lget LA V R (oG st) n) by auto. cbn [bind]. rewrite (W_lget LA V R (oW st) n) by auto. cbn [bind].
  rewrite (gradsub_ok RL _ _ _ _ (nth n (lens V) 0%nat) R); [|apply mttkrp_mat|apply lhs_mat|apply HW; auto|apply HG; auto].
  cbn [bind]. rewrite lput_ok by (destruct HG as (-> & _); auto). cbn [bind].
  destruct (chol_solve_ok (mttkrp V (oW st) n R) (als_lhs lambda (oW st) R n) (nth n (lens V) 0%nat)) as [E HX]; [apply mttkrp_mat|apply lhs_mat|].
  rewrite E. cbn [bind]. rewrite lput_ok by (destruct HW as (_ & -> & _); auto). cbn [bind].
  eexists; split; [reflexivity|]. split; [|split; [reflexivity|split; [eexists; reflexivity|reflexivity]]].
  split; [apply setf_factors; auto|]. split; [|apply lhs_mat].
  apply setf_mats; auto. apply msub_mat'. apply (mmul_mat _ _ _ R R); [apply HW; auto|apply lhs_mat].
Qed.
Lemma ls_modes_app a b st : ls_modes solve lambda V R (a ++ b) st = ls_modes solve lambda V R b (ls_modes solve lambda V R a st).
Proof. unfold ls_modes. apply fold_left_app. Qed.
Lemma upd_indep st st' n : fst st = fst st' -> snd st = snd st' -> upd st n = upd st' n.
Proof. destruct st, st'. cbn. intros -> ->. auto. Qed.

(** ** CPSimpleOptimizer *)
Theorem simple_mode_ok st i s : (2 <= o <= 10)%nat -> lens V = repeat s o -> ost_ok st -> (i < o)%nat ->
  exists st', simple_mode LA V (mscal lambda (mid R)) i (st, obuf o) = Ok (st', obuf o) /\ ost_ok st' /\ owg st' = upd (owg st) i.
Proof.
  intros H2 Hcube Hst Hi. assert (Hst' := Hst). destruct Hst' as (HW & HG & HS). unfold simple_mode. fold o.
  assert (HL := lbuf_length o).
  assert (Hn : forall m, (m < o)%nat -> nth m (lens V) 0%nat = s).
  { intros m Hm. rewrite Hcube. apply nth_rep; auto. }
  unfold obuf at 1. rewrite (swap_char_app (lbuf o) (newbuf (99 - o)) i (o - 1) _ ltac:(lia) ltac:(lia) (swap_lbuf o i Hi)). cbn [bind].
  rewrite (W_lget LA V R (oW st) i) by auto. cbn [bind]. destruct (W_dims V R (oW st) i HW Hi) as [Hr Hc]. rewrite Hr, Hc.
  assert (HLs : length (map Some (map chr (swapped o i) ++ [0%Z])) = (o + 1)%nat).
  { rewrite map_length, app_length, map_length. unfold swapped. rewrite swapl_length, seq_length. auto. }
  rewrite make_index_app by lia.
  rewrite (make_index_ok o i _ R (fun m => nth m (lens V) 0%nat)); [|lia|auto|].
  2:{ intros m Hm. rewrite (W_lget LA V R (oW st) m) by auto. cbn [bind]. destruct (W_dims V R (oW st) m HW Hm) as [-> _]. auto. }
  cbn [bind].
  replace (map (fun m => nth m (lens V) 0%nat) (firstn (o - 1) (swapped o i))) with (repeat s (o - 1)).
  2:{ assert (Hl : length (swapped o i) = o) by (unfold swapped; rewrite swapl_length, seq_length; auto).
      apply nth_ext with (d:=0%nat) (d':=0%nat).
      { rewrite repeat_length, map_length, firstn_length. lia. }
      rewrite repeat_length. intros k Hk.
      rewrite nth_rep by auto. rewrite (nth_map_lt _ _ _ 0%nat) by (rewrite firstn_length; lia).
      rewrite nth_firstn by auto. symmetry. apply Hn.
      rewrite swapped_nth by lia. natcases. }
  rewrite (KhatriRao_contract_ok RL V (oW st) R s (swapped o i) ltac:(fold o; lia) Hcube HW (swapped_perm o i Hi) _ i).
  2:{ apply swapped_last; auto. }
  2:{ cbn. rewrite Hn; auto. }
  cbn [bind]. destruct (opt_update_ok st i) as (st' & E & Hok & Hu & _); auto; [lia|]. rewrite E. cbn [bind].
  rewrite (swap_char_app _ (newbuf (99 - o)) i (o - 1) _ ltac:(rewrite HLs; lia) ltac:(rewrite HLs; lia) (swap_back o i Hi)). cbn [bind]. fold (obuf o). exists st'. auto.
Qed.
Theorem simple_step_ok st s : (2 <= o <= 10)%nat -> lens V = repeat s o -> ost_ok st ->
  exists st', simple_step LA V (mscal lambda (mid R)) (st, obuf o) = Ok (1%Q, (st', obuf o)) /\ ost_ok st' /\
    owg st' = ls_modes solve lambda V R (seq 0 o) (owg st).
Proof.
  intros H2 Hcube Hst. unfold simple_step. fold o.
  destruct (for_inv (fun i x => ost_ok (fst x) /\ snd x = obuf o /\ owg (fst x) = ls_modes solve lambda V R (seq 0 i) (owg st))
    (simple_mode LA V (mscal lambda (mid R))) 0 o (st, obuf o)) as ([st' b] & E & Ha & Hb & Hc).
  - lia.
  - cbn. auto.
  - intros i [x b] Hi (Ha & Hb & Hc). cbn [fst snd] in *. subst b. destruct (simple_mode_ok x i s) as (x' & E & Hok & Hu); auto; [lia|].
    exists (x', obuf o). split; [exact E|]. cbn [fst snd]. split; auto. split; auto. rewrite Hu. rewrite seq_S, ls_modes_app, <- Hc. reflexivity.
  - cbn [fst snd] in *. subst b. rewrite E. cbn [bind]. eauto.
Qed.

(** ** the tree optimizers *)
Hypothesis Ho : (3 <= o <= 31)%nat.
Context (t : tree).
Hypothesis Ht : good_tree (o - 1) t.
Theorem tree_mode_ok l fuel i st mp : (l < o)%nat -> ost_ok st -> (i < o - 1)%nat -> (o - 1 <= fuel)%nat -> oinv V R l i (oW st) mp ->
  exists st' mp', tree_mode LA fuel V (mscal lambda (mid R)) t (after o l) i (st, mp) = Ok (st', mp') /\ ost_ok st' /\
    owg st' = upd (owg st) (cmode o l i) /\ ((S i < o - 1)%nat -> oinv V R l (S i) (oW st') mp').
Proof.
  intros Hl Hst Hi Hf Hinv. unfold tree_mode.
  destruct (leaf_ok RL V R Ho t Ht l Hl fuel (oW st) i mp) as (mp' & E & Hinv'); auto; [apply Hst|]. fold o in E. rewrite E. cbn [bind].
  assert (Hm : (cmode o l i < o)%nat) by (apply cmode_lt; lia).
  rewrite (lget_ok _ _ 0%nat) by (rewrite after_length; lia). rewrite after_nth by lia. cbn [bind].
  destruct (opt_update_ok st (cmode o l i)) as (st' & E2 & Hok & Hu & (X & HX) & _); auto; [lia|]. fold o. rewrite E2. cbn [bind].
  exists st', mp'. split; auto. split; auto. split; auto. intros HSi. rewrite HX.
  apply (oinv_next V R Ho l Hl); auto. destruct Hst as ((_ & HL & _) & _). auto.
Qed.
Theorem tree_loop_ok l fuel lo hi st : (l < o)%nat -> ost_ok st -> (lo <= hi)%nat -> (hi <= o - 1)%nat -> (o - 1 <= fuel)%nat ->
  exists st' mp', for_ lo hi (tree_mode LA fuel V (mscal lambda (mid R)) t (after o l))
      (st, sput sempty (sstr (seq 0 (o - 1))) (partial_mttkrp V (oW st) (after o l) R)) = Ok (st', mp') /\ ost_ok st' /\
    owg st' = ls_modes solve lambda V R (map (cmode o l) (seq lo (hi - lo))) (owg st).
Proof.
  intros Hl Hst Hlo Hhi Hf.
  destruct (for_inv (fun i x => ost_ok (fst x) /\ owg (fst x) = ls_modes solve lambda V R (map (cmode o l) (seq lo (i - lo))) (owg st) /\
       ((i < o - 1)%nat -> oinv V R l i (oW (fst x)) (snd x)))
    (tree_mode LA fuel V (mscal lambda (mid R)) t (after o l)) lo hi
    (st, sput sempty (sstr (seq 0 (o - 1))) (partial_mttkrp V (oW st) (after o l) R))) as ([st' mp'] & E & Ha & Hb & Hc).
  - auto.
  - cbn [fst snd]. rewrite Nat.sub_diag. split; auto. split; auto. intros Hi. apply (oinv_start V R Ho l Hl). auto.
  - intros i [x mp] Hi (Ha & Hb & Hc). cbn [fst snd] in *.
    destruct (tree_mode_ok l fuel i x mp) as (x' & mp' & E & Hok & Hu & Hn); auto; [lia|apply Hc; lia|].
    exists (x', mp'). split; [exact E|]. cbn [fst snd]. split; auto. split; [|auto]. rewrite Hu, Hb.
    replace (S i - lo)%nat with (S (i - lo)) by lia. rewrite seq_S, map_app, ls_modes_app. cbn [map]. replace (lo + (i - lo))%nat with i by lia. reflexivity.
  - cbn [fst snd] in *. rewrite E. eauto.
Qed.
End P.
