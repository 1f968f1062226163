(** The partial-update variant of pairwise perturbation *)
From Coq Require Import List ZArith Lia Bool Arith Permutation Ring.
From Verif Require Import Base Num Tensor Spec Spec2 MCommon MCP PBase PTensor PSum PMttkrp PPart PMat PKhatri PGrad PMatAlg PResid
  PSolve PTree PDT PDTSweep PALS PDrivers PPP PPPSweep PPPDriver PPPMulti.
Import ListNotations.

Section P.
Context {N : num} (RL : ring_laws N) (LA : lapack N).
Let RT : ring_theory (@n0 N) n1 nadd nmul nsub nopp (@eq N) := RL.
Add Ring NringPU : RT.
Local Open Scope num_scope.
Context (V : tensor N) (R : nat).
Let o := order V.
Hypothesis Hsh : svd_shaped (svd LA).
Let solve := pinv_solve (svd LA) R.

Lemma setf_map_seq (f : nat -> tensor N) n i A : (i < n)%nat -> setf (map f (seq 0 n)) i A = map (fun j => if Nat.eqb j i then A else f j) (seq 0 n).
Proof.
  intros Hi. apply (list_fac_ext _ _ n).
  - rewrite setf_length, map_length, seq_length. auto.
  - rewrite map_length, seq_length. auto.
  - intros m Hm. rewrite fac_setf by (rewrite map_length, seq_length; auto). rewrite !fac_map_seq by auto. auto.
Qed.
Lemma fac_eta (W : list (tensor N)) : length W = o -> W = map (fac W) (seq 0 o).
Proof. intros H. apply (list_fac_ext _ _ o); auto; [rewrite map_length, seq_length; auto|]. intros m Hm. rewrite fac_map_seq by auto. auto. Qed.

(** one contribution *)
Lemma contrib_right mp W0 D M i j : (i < j)%nat -> (j < o)%nat -> length W0 = o -> pptab V R mp W0 ->
  is_mat M (nth i (lens V) 0%nat) R -> is_mat D (nth j (lens V) 0%nat) R ->
  assign true M sik [prodt [(tget mp (map chr (outside [i; j] o)), [ch_i; ch_j; ch_k]); (D, sjk)]]
  = Ok (madd M (mttkrp V (setf W0 j D) i R)).
Proof.
  intros Hij Hj HL (_ & H2) [HM HMw] [HD HDw]. unfold tget. unfold o in *. rewrite H2 by auto.
  rewrite (assign_pp_right RL M (partial_mttkrp V W0 [i; j] R) D (nth j (lens V) 0%nat) (nth i (lens V) 0%nat) R); auto.
  f_equal. unfold madd. rewrite HM. apply tabulate_ext. intros idx Hidx. apply inb2_inv in Hidx as (a & k & -> & Ha & Hk). cbn [nth].
  change (at_ M [a; k]) with (el M a k). f_equal. change (at_ (mttkrp V (setf W0 j D) i R) [a; k]) with (el (mttkrp V (setf W0 j D) i R) a k).
  rewrite el_mttkrp by auto. rewrite (mttkrp_split2 RL V) by (auto; lia).
  apply bigsum_ext. intros x Hx. apply in_seq in Hx. rewrite at_partial2 by (auto; lia). auto.
Qed.
Lemma contrib_left mp W0 D M i j : (i < j)%nat -> (j < o)%nat -> length W0 = o -> pptab V R mp W0 ->
  is_mat M (nth j (lens V) 0%nat) R -> is_mat D (nth i (lens V) 0%nat) R ->
  assign true M sjk [prodt [(tget mp (map chr (outside [i; j] o)), [ch_i; ch_j; ch_k]); (D, sik)]]
  = Ok (madd M (mttkrp V (setf W0 i D) j R)).
Proof.
  intros Hij Hj HL (_ & H2) [HM HMw] [HD HDw]. unfold tget. unfold o in *. rewrite H2 by auto.
  rewrite (assign_pp_left RL M (partial_mttkrp V W0 [i; j] R) D (nth i (lens V) 0%nat) (nth j (lens V) 0%nat) R); auto.
  f_equal. unfold madd. rewrite HM. apply tabulate_ext. intros idx Hidx. apply inb2_inv in Hidx as (a & k & -> & Ha & Hk). cbn [nth].
  change (at_ M [a; k]) with (el M a k). f_equal. change (at_ (mttkrp V (setf W0 i D) j R) [a; k]) with (el (mttkrp V (setf W0 i D) j R) a k).
  rewrite el_mttkrp by auto. rewrite (mttkrp_split1 RL V) by (auto; lia).
  apply bigsum_ext. intros x Hx. apply in_seq in Hx. rewrite at_partial2 by (auto; lia). auto.
Qed.
Definition prop_at (W0 dM : list (tensor N)) (D : tensor N) (i : nat) (done : nat -> bool) : list (tensor N) :=
  map (fun j => if Nat.eqb j i then zeros [nth i (lens V) 0%nat; R]
                else if done j then madd (fac dM j) (mttkrp V (setf W0 i D) j R) else fac dM j) (seq 0 o).
Lemma prop_at_mats W0 dM D i done : mats_ok V dM R -> (i < o)%nat -> mats_ok V (prop_at W0 dM D i done) R.
Proof.
  intros [HL HM] Hi. split; [unfold prop_at; rewrite map_length, seq_length; auto|]. intros m Hm. unfold prop_at. fold o in Hm. rewrite fac_map_seq by auto.
  destruct (Nat.eqb_spec m i); [subst; split; [reflexivity|apply tabulate_wf]|]. destruct (done m); [apply madd_mat|]; apply HM; auto.
Qed.
Lemma prop_at_set W0 dM D i done j : (j < o)%nat -> j <> i ->
  setf (prop_at W0 dM D i done) j (madd (fac dM j) (mttkrp V (setf W0 i D) j R)) = prop_at W0 dM D i (fun k => done k || Nat.eqb k j).
Proof.
  intros Hj Hne. unfold prop_at. rewrite setf_map_seq by auto. apply map_ext. intros a.
  destruct (Nat.eqb_spec a j); [subst; destruct (Nat.eqb_spec j i); [contradiction|]; rewrite orb_true_r; auto|].
  rewrite orb_false_r. auto.
Qed.
Lemma prop_at_ext W0 dM D i d1 d2 : (forall j, (j < o)%nat -> j <> i -> d1 j = d2 j) -> prop_at W0 dM D i d1 = prop_at W0 dM D i d2.
Proof.
  intros H. unfold prop_at. apply map_ext_in. intros a Ha. apply in_seq in Ha. destruct (Nat.eqb_spec a i); auto. rewrite H by (auto; lia). auto.
Qed.
Lemma pu_propagate_ok mp W0 dW dM i : (2 <= o <= 31)%nat -> (i < o)%nat -> length W0 = o -> pptab V R mp W0 -> mats_ok V dW R -> mats_ok V dM R ->
  pu_propagate V mp (lbuf o) dW i dM = Ok (prop_at W0 dM (fac dW i) i (fun _ => true)).
Proof.
  intros Ho Hi HL Ht HD HM. unfold pu_propagate. fold o. rewrite (F_lget LA V R dM i) by auto. cbn [bind].
  rewrite (assign_zero RL _ (nth i (lens V) 0%nat) R) by (apply HM; auto). cbn [bind].
  rewrite lput_ok by (destruct HM as [-> _]; auto). cbn [bind]. rewrite (F_lget LA V R dW i) by auto. cbn [bind].
  fold (setf dM i (zeros [nth i (lens V) 0%nat; R])).
  replace (setf dM i (zeros [nth i (lens V) 0%nat; R])) with (prop_at W0 dM (fac dW i) i (fun j => Nat.ltb j 0)).
  2:{ assert (HLM : length dM = o) by apply HM. transitivity (setf (map (fac dM) (seq 0 o)) i (zeros [nth i (lens V) 0%nat; R])); [|rewrite <- fac_eta; auto].
      rewrite setf_map_seq by auto. apply map_ext.
      intros a. destruct (Nat.eqb_spec a i); auto. }
  assert (HDi : is_mat (fac dW i) (nth i (lens V) 0%nat) R) by (apply HD; auto).
  set (D := fac dW i) in *.
  destruct (for_inv (fun ii X => X = prop_at W0 dM D i (fun j => Nat.ltb j ii))
    (fun ii dM0 => s <- seq_except2 o (lbuf o) ii i ;; m <- lget dM0 ii ;;
       m <- assign true m sik [prodt [(tget mp s, [ch_i; ch_j; ch_k]); (D, sjk)]] ;; lput dM0 ii m) 0 i (prop_at W0 dM D i (fun j => Nat.ltb j 0)))
    as (X & EX & HX).
  - lia.
  - auto.
  - intros ii X Hii ->. rewrite except2_ok by lia. cbn [bind].
    assert (Hpm := prop_at_mats W0 dM D i (fun j => Nat.ltb j ii) HM Hi).
    rewrite (F_lget LA V R _ ii) by (auto; fold o; lia). cbn [bind].
    assert (Ef : fac (prop_at W0 dM D i (fun j => Nat.ltb j ii)) ii = fac dM ii).
    { unfold prop_at. rewrite fac_map_seq by lia. natcases. auto. }
    rewrite Ef. rewrite (contrib_right mp W0 D (fac dM ii) ii i); auto; [|lia|apply HM; fold o; lia]. cbn [bind].
    rewrite lput_ok by (destruct Hpm as [-> _]; fold o; lia). eexists; split; [reflexivity|].
    fold (setf (prop_at W0 dM D i (fun j => Nat.ltb j ii)) ii (madd (fac dM ii) (mttkrp V (setf W0 i D) ii R))).
    rewrite prop_at_set by lia. apply prop_at_ext. intros j Hj Hne. clear - Hj. natcases; auto.
  - rewrite EX. cbn [bind]. subst X.
    destruct (for_inv (fun ii X => X = prop_at W0 dM D i (fun j => Nat.ltb j ii))
    (fun ii dM0 => s <- seq_except2 o (lbuf o) i ii ;; m <- lget dM0 ii ;;
       m <- assign true m sjk [prodt [(tget mp s, [ch_i; ch_j; ch_k]); (D, sik)]] ;; lput dM0 ii m) (i + 1) o (prop_at W0 dM D i (fun j => Nat.ltb j i)))
    as (X & EX2 & HX).
    + lia.
    + apply prop_at_ext. intros j Hj Hne. clear - Hj Hne. natcases; auto.
    + intros ii X Hii ->. rewrite except2_ok by lia. cbn [bind].
      assert (Hpm := prop_at_mats W0 dM D i (fun j => Nat.ltb j ii) HM Hi).
      rewrite (F_lget LA V R _ ii) by (auto; fold o; lia). cbn [bind].
      assert (Ef : fac (prop_at W0 dM D i (fun j => Nat.ltb j ii)) ii = fac dM ii).
      { unfold prop_at. rewrite fac_map_seq by lia. natcases. auto. }
      rewrite Ef. rewrite (contrib_left mp W0 D (fac dM ii) i ii); auto; [|lia|lia|apply HM; fold o; lia]. cbn [bind].
      rewrite lput_ok by (destruct Hpm as [-> _]; fold o; lia). eexists; split; [reflexivity|].
      fold (setf (prop_at W0 dM D i (fun j => Nat.ltb j ii)) ii (madd (fac dM ii) (mttkrp V (setf W0 i D) ii R))).
      rewrite prop_at_set by lia. apply prop_at_ext. intros j Hj Hne. clear - Hj. natcases; auto.
    + rewrite EX2. subst X. f_equal. apply prop_at_ext. intros j Hj Hne. clear - Hj. natcases; auto.
Qed.
Lemma assign_madd (D A B : tensor N) r c : lens D = [r; c] -> is_mat A r c -> is_mat B r c ->
  assign false D sij [mkTerm n1 [(A, sij)]; mkTerm n1 [(B, sij)]] = Ok (madd A B).
Proof.
  intros HD [HA HAw] [HB HBw]. rewrite (assign_lin RL _ _ _ n1 n1 r c) by auto. f_equal. unfold madd. rewrite HA. unfold mk.
  apply tabulate_ext. intros idx Hidx. apply inb2_inv in Hidx as (i & k & -> & Hi & Hk). cbn [nth]. unfold el. ring.
Qed.
Definition pu_ok (st : pu_st N) : Prop :=
  factors_ok V (suW st) R /\ mats_ok V (sudW st) R /\ mats_ok V (sudM st) R /\ mats_ok V (suM st) R /\ mats_ok V (suG st) R.
Definition of_pu (st : pu_st N) (Sm : tensor N) : pu_state (N:=N) := mkPU (suW st) (suG st) (sudW st) (suM st) (sudM st) Sm (lbuf o).
Lemma pu_update_ok lambda ratio W0 st i : factors_ok V W0 R -> pu_ok st -> (i < o)%nat -> pu_ok (pu_update solve lambda ratio V W0 R st i).
Proof.
  intros HW0 (H1 & H2 & H3 & H4 & H5) Hi. unfold pu_update, pu_ok. cbn [suW sudW sudM suM suG].
  assert (HM : is_mat (madd (mttkrp V W0 i R) (fac (sudM st) i)) (nth i (lens V) 0%nat) R) by (apply madd_mat; split; [reflexivity|apply tabulate_wf]).
  assert (HX : is_mat (solve (madd (mttkrp V W0 i R) (fac (sudM st) i)) (als_lhs lambda (suW st) R i)) (nth i (lens V) 0%nat) R).
  { apply (solve_mat RL LA R Hsh); [auto|apply lhs_mat]. }
  assert (HD := mscal_mat ratio _ _ _ (msub_mat' _ (fac W0 i) _ _ HX)).
  split; [|split; [|split; [|split]]].
  - apply setf_factors; auto. apply madd_mat. apply HW0. auto.
  - apply setf_mats; auto.
  - apply (prop_at_mats W0 (sudM st) _ i (fun _ => true)); auto.
  - apply setf_mats; auto.
  - apply setf_mats; auto. apply msub_mat', (mmul_mat _ _ _ R R); [|apply lhs_mat]. apply H1. auto.
Qed.
Theorem PU_mode_ok mp (W0 : list (tensor N)) st Sm (lambda ratio : N) i : (2 <= o <= 31)%nat -> (i < o)%nat ->
  (neqb lambda n0 = true -> lambda = n0) -> (neqb ratio n1 = true -> ratio = n1) ->
  factors_ok V W0 R -> pu_ok st -> lens Sm = [R; R] -> pptab V R mp W0 ->
  PU_mode LA V mp W0 lambda ratio (mscal lambda (mid R)) (lbuf o) i (of_pu st Sm)
  = Ok (of_pu (pu_update solve lambda ratio V W0 R st i) (als_lhs lambda (suW st) R i)).
Proof.
  intros Ho Hi Hl Hr HW0 (HW & HD & HdM & HM & HG) HSm Htab. unfold PU_mode, of_pu. cbn [uW uG udW uM udM uS useq]. fold o.
  rewrite swap_lbuf by auto. cbn [bind].
  rewrite (W_lget LA V R (suW st) i) by auto. cbn [bind]. destruct (W_dims V R (suW st) i HW Hi) as [Er Hc]. rewrite Hc.
  assert (Eix := index_ok LA V R i Ho Hi R). fold o in Eix. rewrite Eix. clear Eix. cbn [bind].
  rewrite except1_ok by lia. cbn [bind]. rewrite (F_lget LA V R (suM st) i) by auto. cbn [bind]. rewrite (F_lget LA V R (sudM st) i) by auto. cbn [bind].
  assert (Et1 : tget mp (map chr (outside [i] o)) = mttkrp V W0 i R) by (unfold tget; destruct Htab as [-> _]; auto). rewrite Et1.
  assert (Hmt : is_mat (mttkrp V W0 i R) (nth i (lens V) 0%nat) R) by (split; [reflexivity|apply tabulate_wf]).
  rewrite (assign_madd _ _ _ (nth i (lens V) 0%nat) R); auto; [|apply HM; auto|apply HdM; auto]. cbn [bind].
  set (M := madd (mttkrp V W0 i R) (fac (sudM st) i)).
  assert (HMm : is_mat M (nth i (lens V) 0%nat) R) by (apply madd_mat; auto).
  rewrite lput_ok by (destruct HM as [-> _]; auto). cbn [bind].
  assert (Egr := gram_ok RL V R Sm (suW st) i ltac:(fold o; lia) HW Hi HSm). fold o in Egr. rewrite Egr. clear Egr. cbn [bind].
  rewrite (add_regul_ok RL) by auto. cbn [bind].
  rewrite (F_lget LA V R (suG st) i) by auto. cbn [bind].
  rewrite (gradsub_ok RL _ _ _ _ (nth i (lens V) 0%nat) R); [|auto|apply lhs_mat|apply HW; auto|apply HG; auto].
  cbn [bind]. rewrite lput_ok by (destruct HG as (-> & _); auto). cbn [bind].
  rewrite (W_lget LA V R W0 i) by auto. cbn [bind]. rewrite (F_lget LA V R (sudW st) i) by auto. cbn [bind].
  destruct (SVD_solve_pinv RL LA M (fac (suW st) i) (als_lhs lambda (suW st) R i) (nth i (lens V) 0%nat) R) as [E2 Hm]; auto.
  { apply HW; auto. } { apply lhs_mat. }
  rewrite (SVD_solve_mod_ok RL LA _ _ _ _ _ (nth i (lens V) 0%nat) R ratio (solve M (als_lhs lambda (suW st) R i)));
    [|apply HW; auto|apply HW0; auto|apply HD; auto|exact E2|exact Hm|auto].
  cbn [bind]. rewrite lput_ok by (destruct HW as (_ & -> & _); auto). cbn [bind].
  rewrite lput_ok by (destruct HD as (-> & _); auto). cbn [bind].
  set (D := mscal ratio (msub (solve M (als_lhs lambda (suW st) R i)) (fac W0 i))).
  assert (HDm : is_mat D (nth i (lens V) 0%nat) R).
  { apply mscal_mat, msub_mat'. auto. }
  fold (setf (sudW st) i D).
  assert (Epp := pu_propagate_ok mp W0 (setf (sudW st) i D) (sudM st) i Ho Hi ltac:(apply HW0) Htab ltac:(apply setf_mats; auto) HdM).
  rewrite fac_setf in Epp by (destruct HD as [-> _]; auto). rewrite Nat.eqb_refl in Epp. rewrite Epp. cbn [bind].
  rewrite swap_back by auto. cbn [bind]. unfold pu_update. cbn [suW sudW sudM suM suG]. fold M. fold D. reflexivity.
Qed.
Lemma pu_modes_ok lambda ratio W0 modes : forall st, factors_ok V W0 R -> pu_ok st -> (forall m, In m modes -> (m < o)%nat) ->
  pu_ok (pu_modes solve lambda ratio V W0 R modes st).
Proof.
  induction modes as [|m modes IH]; intros st HW0 Hs Hm; auto. cbn. apply IH; auto; [|intros; apply Hm; right; auto].
  apply pu_update_ok; auto. apply Hm. left; auto.
Qed.
Theorem PU_sweep_ok mp (W0 : list (tensor N)) st Sm (lambda ratio : N) size rel : (2 <= o <= 31)%nat ->
  (neqb lambda n0 = true -> lambda = n0) -> (neqb ratio n1 = true -> ratio = n1) ->
  factors_ok V W0 R -> pu_ok st -> lens Sm = [R; R] -> pptab V R mp W0 -> length rel = o -> (size <= o)%nat -> Permutation (sort_indexes rel) (seq 0 o) ->
  let st' := pu_sweep solve lambda ratio V W0 R (firstn size (sort_indexes rel)) st in
  exists Sm', PU_sweep LA V mp W0 lambda ratio (mscal lambda (mid R)) (lbuf o) size rel (of_pu st Sm)
  = Ok (map (fun j => norm2 (fac (sudM st') j) / norm2 (fac (suM st') j)) (seq 0 o), of_pu st' Sm') /\ lens Sm' = [R; R] /\ pu_ok st'.
Proof.
  intros Ho Hl Hr HW0 Hst HSm Htab Hrel Hsz Hperm st'. unfold PU_sweep. fold o. set (srt := sort_indexes rel) in *.
  assert (Hlen : length srt = o) by (rewrite (Permutation_length Hperm), seq_length; auto).
  assert (Hin : forall m, In m srt -> (m < o)%nat) by (intros m Hm; apply (Permutation_in _ Hperm), in_seq in Hm; lia).
  assert (Hin' : forall k m, In m (firstn k srt) -> (m < o)%nat).
  { intros k m Hm. apply Hin. rewrite <- (firstn_skipn k srt). apply in_app_iff. auto. }
  destruct (for_inv (fun k u => exists Sm', u = of_pu (pu_modes solve lambda ratio V W0 R (firstn k srt) st) Sm' /\ lens Sm' = [R; R])
    (fun k st0 => i <- lget srt k ;; PU_mode LA V mp W0 lambda ratio (mscal lambda (mid R)) (lbuf o) i st0) 0 size (of_pu st Sm)) as (u & Eu & Sm' & Hu & HS').
  - lia.
  - exists Sm. split; auto.
  - intros k u Hk (Sm' & -> & HS'). rewrite (lget_ok srt k 0%nat) by lia. cbn [bind].
    assert (Hkm : (nth k srt 0 < o)%nat) by (apply Hin, nth_In; lia).
    assert (Hok := pu_modes_ok lambda ratio W0 (firstn k srt) st HW0 Hst (Hin' k)).
    rewrite (PU_mode_ok mp W0 _ Sm' lambda ratio (nth k srt 0%nat)); auto.
    eexists; split; [reflexivity|]. exists (als_lhs lambda (suW (pu_modes solve lambda ratio V W0 R (firstn k srt) st)) R (nth k srt 0%nat)). split; [|apply lhs_mat].
    replace (firstn (S k) srt) with (firstn k srt ++ [nth k srt 0%nat]).
    + unfold pu_modes. rewrite fold_left_app. reflexivity.
    + clear - Hk Hlen Hsz. assert (Hk' : (k < length srt)%nat) by lia. clear Hlen Hk Hsz. revert k Hk'. induction srt as [|a l IH]; intros k Hk; cbn in Hk; [lia|].
      destruct k; cbn; auto. f_equal. apply IH. lia.
  - rewrite Eu. cbn [bind]. subst u. unfold of_pu. cbn [uW uG udW uM udM uS useq].
    assert (Hok := pu_modes_ok lambda ratio W0 (firstn size srt) st HW0 Hst (Hin' size)).
    set (pm := pu_modes solve lambda ratio V W0 R (firstn size srt) st) in *. destruct Hok as (K1 & K2 & K3 & K4 & K5).
    set (f := fun j => norm2 (fac (sudM pm) j) / norm2 (fac (suM pm) j)).
    destruct (for_inv (fun k r => r = map f (seq 0 k) ++ skipn k rel) (fun i r => d <- lget (sudM pm) i ;; m <- lget (suM pm) i ;; lput r i (norm2 d / norm2 m)) 0 o rel)
      as (r & Er & Hr').
    + lia.
    + reflexivity.
    + intros k r Hk ->. rewrite (F_lget LA V R (sudM pm) k) by (auto; fold o; lia). cbn [bind]. rewrite (F_lget LA V R (suM pm) k) by (auto; fold o; lia). cbn [bind].
      rewrite lput_ok by (rewrite app_length, map_length, seq_length, skipn_length; lia).
      eexists; split; [reflexivity|]. fold (f k). 
      rewrite seq_S, map_app. cbn [map Nat.add]. rewrite <- app_assoc. cbn [app].
      assert (Hs : skipn k rel = nth k rel n0 :: skipn (S k) rel).
      { clear - Hk Hrel. revert k Hk. assert (Hx : forall k, (k < length rel)%nat -> skipn k rel = nth k rel n0 :: skipn (S k) rel).
        { clear. induction rel as [|a l IH]; intros k Hk; cbn in Hk; [lia|]. destruct k; auto. cbn [skipn nth]. apply IH. lia. }
        intros. apply Hx. lia. }
      rewrite Hs. clear - Hk. assert (Hx : forall (l : list N) x y r, lset (l ++ x :: r) (length l) y = l ++ y :: r).
      { induction l; cbn; intros; auto. f_equal. auto. }
      assert (Hz := Hx (map f (seq 0 k)) (nth k rel n0) (f k) (skipn (S k) rel)). rewrite map_length, seq_length in Hz. exact Hz.
    + rewrite Er. cbn [bind]. assert (EN := Normalize_rescaled RL V R (suW pm) K1). fold o in EN. rewrite EN. cbn [bind].
      exists Sm'. split; [|split; [auto|]].
      * subst r. rewrite skipn_all2 by lia. rewrite app_nil_r. reflexivity.
      * unfold st', pu_sweep. fold pm. unfold pu_ok. cbn [suW sudW sudM suM suG]. split; [apply rescaled_factors; auto|auto].
Qed.

(** ** in-order sweeps are pairwise-perturbation sweeps *)
Definition c_ord (i m j : nat) : bool := if Nat.ltb j i then Nat.ltb j m && Nat.ltb m i else Nat.ltb m i || Nat.ltb j m.
Definition pu_inv (W0 : list (tensor N)) (i : nat) (st : pu_st N) : Prop :=
  forall j a k, (j < o)%nat -> (a < nth j (lens V) 0%nat)%nat -> (k < R)%nat ->
    el (fac (sudM st) j) a k
    = bigsum (seq 0 o) (fun m => if c_ord i m j then el (mttkrp V (setf W0 m (fac (sudW st) m)) j R) a k else n0).
Lemma pu_inv_M W0 i st : (i < o)%nat -> pu_ok st -> pu_inv W0 i st ->
  madd (mttkrp V W0 i R) (fac (sudM st) i) = pp_mttkrp V W0 (sudW st) i R.
Proof.
  intros Hi Hok H. apply (mat_ext _ _ (nth i (lens V) 0%nat) R).
  - apply madd_mat. split; [reflexivity|apply tabulate_wf].
  - apply pp_mttkrp_mat.
  - intros a k Ha Hk. rewrite (el_madd _ _ (nth i (lens V) 0%nat) R); auto; [|split; [reflexivity|apply tabulate_wf]].
    rewrite H by auto. unfold pp_mttkrp. unfold el at 3. rewrite at_tabulate by (apply inb2; auto).
    fold (el (mttkrp V W0 i R) a k). f_equal. unfold others. rewrite (bigsum_filter RL). apply bigsum_ext. intros m Hm.
    unfold c_ord. rewrite Nat.ltb_irrefl. unfold el. clear. natcases; auto.
Qed.
Lemma pu_inv_step lambda ratio W0 i st : (i < o)%nat -> factors_ok V W0 R -> pu_ok st -> pu_inv W0 i st ->
  pu_inv W0 (S i) (pu_update solve lambda ratio V W0 R st i).
Proof.
  intros Hi HW0 Hok H j a k Hj Ha Hk. unfold pu_update. cbn [suW sudW sudM suM suG].
  set (D := mscal ratio _). fold o. rewrite fac_map_seq by auto.
  assert (HLd : length (sudW st) = o) by apply Hok.
  destruct (Nat.eqb_spec j i) as [->|Hne].
  - unfold zeros, el at 1. rewrite at_tabulate by (apply inb2; auto). symmetry. apply (bigsum_zero RL). intros m _.
    unfold c_ord. clear. natcases; auto.
  - rewrite (el_madd _ _ (nth j (lens V) 0%nat) R); auto; [|apply Hok; auto]. rewrite H by auto.
    assert (Es := bigsum_single RL (seq 0 o) (fun m => if Nat.eqb m i then el (mttkrp V (setf W0 i D) j R) a k else n0) i (seq_NoDup _ _)
      ltac:(apply in_seq; lia) ltac:(intros m _ Hm; cbv beta; clear - Hm; natcases; auto)). cbv beta in Es.
    rewrite Nat.eqb_refl in Es. rewrite <- Es. rewrite <- (bigsum_add RL). apply bigsum_ext. intros m Hm. rewrite fac_setf by (rewrite HLd; auto).
    destruct (Nat.eqb_spec m i) as [->|Hmi].
    + assert (E1 : c_ord i i j = false) by (unfold c_ord; clear - Hne; natcases; auto). 
      assert (E2 : c_ord (S i) i j = true) by (unfold c_ord; clear - Hne; natcases; auto). rewrite E1, E2. ring.
    + assert (E1 : c_ord (S i) m j = c_ord i m j) by (unfold c_ord; clear - Hne Hmi; natcases; auto). rewrite E1. ring.
Qed.

Lemma pu_upto_pp lambda ratio W0 st : factors_ok V W0 R -> pu_ok st -> pu_inv W0 0 st -> forall n, (n <= o)%nat ->
  let s := pu_modes solve lambda ratio V W0 R (seq 0 n) st in
  pu_ok s /\ pu_inv W0 n s /\ (suW s, sudW s) = pp_upto solve lambda ratio V W0 R n (suW st, sudW st) /\
  (forall j, (j < n)%nat -> fac (suM s) j = (let '(W, dW) := pp_upto solve lambda ratio V W0 R j (suW st, sudW st) in pp_mttkrp V W0 dW j R)) /\
  (forall j, (j < n)%nat -> fac (suG s) j = (let '(W, dW) := pp_upto solve lambda ratio V W0 R j (suW st, sudW st) in
      msub (mmul (fac W j) (als_lhs lambda W R j)) (pp_mttkrp V W0 dW j R))).
Proof.
  intros HW0 Hok Hinv. induction n as [|n IH]; intros Hn.
  - cbn. split; [auto|]. split; [auto|]. split; [auto|]. split; intros; lia.
  - destruct IH as (K1 & K2 & K3 & K4 & K5); [lia|]. cbv zeta. rewrite seq_S. cbn [Nat.add]. unfold pu_modes in *. rewrite fold_left_app. cbn [fold_left].
    set (s := fold_left (pu_update solve lambda ratio V W0 R) (seq 0 n) st) in *.
    assert (EM := pu_inv_M W0 n s ltac:(lia) K1 K2).
    split; [apply pu_update_ok; auto; lia|]. split; [apply pu_inv_step; auto; lia|].
    assert (HLM : length (suM s) = o) by apply K1. assert (HLG : length (suG s) = o) by apply K1.
    split; [|split].
    + unfold pp_upto. rewrite seq_S, fold_left_app. cbn [Nat.add fold_left]. fold (pp_upto solve lambda ratio V W0 R n (suW st, sudW st)).
      rewrite <- K3. unfold pu_update, pp_update, pp_step. cbn [suW sudW]. rewrite EM. auto.
    + intros j Hj. unfold pu_update. cbn [suM]. rewrite fac_setf by (rewrite HLM; lia). destruct (Nat.eqb_spec j n) as [->|]; [|apply K4; lia].
      rewrite <- K3. auto.
    + intros j Hj. unfold pu_update. cbn [suG]. rewrite fac_setf by (rewrite HLG; lia). destruct (Nat.eqb_spec j n) as [->|]; [|apply K5; lia].
      rewrite <- K3. rewrite EM. auto.
Qed.
(** one in-order sweep, and the invariant for the next *)
Lemma pu_sweep_pp lambda ratio W0 st : (2 <= o)%nat -> factors_ok V W0 R -> pu_ok st -> pu_inv W0 0 st ->
  let s := pu_sweep solve lambda ratio V W0 R (seq 0 o) st in
  pu_ok s /\ pu_inv W0 0 s /\ (suW s, sudW s) = pp_sweep solve lambda ratio V W0 R (suW st, sudW st) /\
  suG s = pp_grads solve lambda ratio V W0 R (suW st, sudW st).
Proof.
  intros Ho HW0 Hok Hinv s. destruct (pu_upto_pp lambda ratio W0 st HW0 Hok Hinv o (le_n _)) as (K1 & K2 & K3 & K4 & K5).
  unfold s, pu_sweep. set (pm := pu_modes solve lambda ratio V W0 R (seq 0 o) st) in *.
  split; [|split; [|split]].
  - destruct K1 as (A1 & A2 & A3 & A4 & A5). unfold pu_ok. cbn [suW sudW sudM suM suG]. split; [apply rescaled_factors; auto|auto].
  - intros j a k Hj Ha Hk. cbn [sudW sudM]. rewrite K2 by auto. apply bigsum_ext. intros m Hm. apply in_seq in Hm.
    replace (c_ord 0 m j) with (c_ord o m j); auto. unfold c_ord. clear - Hm Hj. natcases; auto.
  - cbn [suW sudW]. unfold pp_sweep. fold o. rewrite <- K3. auto.
  - cbn [suG]. apply (list_fac_ext _ _ o). { apply K1. } { unfold pp_grads. rewrite map_length, seq_length. auto. }
    intros m Hm. rewrite K5 by auto. unfold pp_grads. fold o. rewrite fac_map_seq by auto. auto.
Qed.
Lemma mttkrp_setf_zero W0 m n a k : length W0 = o -> (m < o)%nat -> (n < o)%nat -> m <> n -> (a < nth n (lens V) 0%nat)%nat -> (k < R)%nat ->
  forall D, (forall x y, (x < nth m (lens V) 0%nat)%nat -> (y < R)%nat -> el D x y = n0) -> el (mttkrp V (setf W0 m D) n R) a k = n0.
Proof.
  intros HL Hm Hn Hne Ha Hk D HD. rewrite el_mttkrp by auto. apply (bigsum_zero RL). intros x Hx.
  match goal with |- ?u * ?v = _ => cut (v = n0) end. { intros ->. ring. }
  assert (Hz : forall l, In m l -> bigprod l (fun m' => el (fac (setf W0 m D) m') (nth m' x 0%nat) k) = n0).
  { induction l as [|y l IH]; intros Hin; [destruct Hin|]. cbn. destruct Hin as [->|Hin].
    - rewrite fac_setf by (rewrite HL; auto). rewrite Nat.eqb_refl. rewrite HD; [ring| |auto].
      apply filter_In in Hx as [Hx _]. apply all_idx_in in Hx. apply inb_nth; auto.
    - unfold bigprod in IH. rewrite IH by auto. ring. }
  apply Hz. unfold others. apply filter_In. split; [apply in_seq; lia|]. clear - Hne. natcases; auto.
Qed.
Lemma pu_inv_zero W0 st : length W0 = o -> zero_mats V (sudM st) R -> zero_mats V (sudW st) R -> pu_inv W0 0 st.
Proof.
  intros HL HM HD j a k Hj Ha Hk. rewrite HM by auto. symmetry. apply (bigsum_zero RL). intros m Hm. apply in_seq in Hm.
  destruct (c_ord 0 m j) eqn:E; auto. apply mttkrp_setf_zero; auto; try lia.
  - intros ->. unfold c_ord in E. rewrite Nat.ltb_irrefl in E. cbn in E. discriminate.
  - intros. apply HD; auto. fold o. lia.
Qed.
Fixpoint niter {A} (n : nat) (f : A -> A) (x : A) : A := match n with 0%nat => x | S n => niter n f (f x) end.
Lemma pu_sweeps_pp lambda ratio W0 n : (2 <= o)%nat -> factors_ok V W0 R -> forall st, pu_ok st -> pu_inv W0 0 st ->
  let s := niter n (pu_sweep solve lambda ratio V W0 R (seq 0 o)) st in
  pu_ok s /\ pu_inv W0 0 s /\ (suW s, sudW s) = niter n (pp_sweep solve lambda ratio V W0 R) (suW st, sudW st).
Proof.
  intros Ho HW0. induction n as [|n IH]; intros st Hok Hinv; cbn [niter]; [auto|].
  destruct (pu_sweep_pp lambda ratio W0 st Ho HW0 Hok Hinv) as (K1 & K2 & K3 & _).
  rewrite <- K3. apply IH; auto.
Qed.
End P.
