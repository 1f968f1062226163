(** The sweeps of als_CP.cxx are textbook ALS sweeps *)
From Coq Require Import List ZArith Lia Bool Arith Permutation Ring.
From Verif Require Import Base Num Tensor Spec MCommon MCP PBase PTensor PSum PMttkrp PMat PKhatri PGrad PMatAlg PSolve
  PNormalize PTree PDT PDTSweep.
Import ListNotations.

Section P.
Context {N : num} (RL : ring_laws N) (LA : lapack N).
Let RT : ring_theory (@n0 N) n1 nadd nmul nsub nopp (@eq N) := RL.
Add Ring NringA : RT.
Local Open Scope num_scope.

Lemma SVD_solve_pinv (M W S : tensor N) r k : svd_shaped (svd LA) ->
  is_mat M r k -> lens W = [r; k] -> is_mat S k k ->
  SVD_solve LA M W S = Ok (pinv_solve (svd LA) k M S) /\ is_mat (pinv_solve (svd LA) k M S) r k.
Proof.
  intros Hsh HM HW HS. specialize (Hsh S k HS). unfold SVD_solve, pinv_solve. rewrite (is_mat_ncol _ _ _ HS).
  destruct (svd LA S k) as [[U s] VT]. destruct Hsh as (HU & Hs & Hws & HV).
  rewrite (assign_usv RL S VT (inv_all s) U k k k); [|apply HS|apply HV|exact Hs|apply HU]. cbn [bind].
  set (Sr := mk k k _).
  assert (ESr : Sr = mmul (mmul (mtrans VT) (mdiag k (fun i => n1 / at_ s [i]))) (mtrans U)).
  { pose proof (mtrans_mat VT k k HV) as HVt. pose proof (mtrans_mat U k k HU) as HUt.
    unfold Sr. symmetry. rewrite (mmul_diag_r RL _ k k) by auto.
    rewrite (mmul_mk _ _ k k k) by (auto; apply mk_mat). apply mk_ext. intros i j Hi Hj.
    apply bigsum_ext. intros x Hx. apply in_seq in Hx. rewrite el_mk by lia.
    rewrite (el_mtrans VT k k) by (auto; lia). rewrite (el_mtrans U k k) by (auto; lia).
    rewrite (at1_inv s k) by (auto; lia). auto. }
  assert (HSrm : is_mat Sr k k) by apply mk_mat.
  rewrite (assign_mm RL W M Sr r k k); [|auto|apply HM|reflexivity].
  rewrite <- ESr. rewrite <- (mmul_mk M Sr r k k) by auto. split; auto. apply (mmul_mat _ _ r k k); auto.
Qed.

Lemma mk_regul_ok R lambda : mk_regul R lambda = Ok (mscal lambda (mid R) : tensor N).
Proof.
  unfold mk_regul, assign. cbn [length Nat.eqb order lens zeros tabulate forallb term_ok].
  replace (term_ok (zeros [R; R]) [ch_i; ch_i] (mkTerm lambda [])) with true.
  2:{ unfold term_ok. cbn. rewrite !Nat.eqb_refl. reflexivity. }
  cbn [andb order lens length zeros tabulate Nat.eqb]. f_equal.
  apply tabulate_ext. intros idx Hi. apply inb2_inv in Hi as (i & j & -> & Hi & Hj).
  change (at_ (mid R) [i; j]) with (el (mid R : tensor N) i j). unfold mid. rewrite el_mdiag by auto.
  unfold addressed. cbn [combine consistent forallb assoc fst snd Z.eqb].
  change (ch_i =? ch_i)%Z with true. cbn iota. rewrite Nat.eqb_refl. cbn [andb]. rewrite andb_true_r.
  destruct (Nat.eqb_spec i j).
  - reflexivity.
  - unfold zeros. rewrite at_tabulate by (apply inb2; auto). ring.
Qed.
Lemma addto_madd (C A : tensor N) r c : is_mat C r c -> is_mat A r c ->
  assign true C sij [prodt [(A, sij)]] = Ok (madd C A).
Proof.
  intros HC HA. rewrite (assign_addto RL C A r c) by (apply HC || apply HA). f_equal. symmetry.
  apply mat_mk; [apply madd_mat; auto|]. intros. apply (el_madd _ _ r c); auto.
Qed.
Lemma madd_zero_r (A B : tensor N) r c : is_mat A r c -> (forall i j, (i < r)%nat -> (j < c)%nat -> el B i j = n0) -> madd A B = A.
Proof.
  intros HA HB. apply (mat_ext _ _ r c); auto. { apply madd_mat; auto. }
  intros i j Hi Hj. rewrite (el_madd _ _ r c) by auto. rewrite HB by auto. ring.
Qed.
Lemma lhs_zero W R n : als_lhs n0 W R n = (hgram W n R : tensor N).
Proof.
  unfold als_lhs. apply (madd_zero_r _ _ R R); [apply mk_mat|]. intros i j Hi Hj.
  rewrite (el_mscal _ _ R R) by (auto; apply mdiag_mat). ring.
Qed.
Lemma gradsub_ok (M S W G : tensor N) r k : is_mat M r k -> is_mat S k k -> is_mat W r k -> lens G = [r; k] ->
  gradsubprob M S W G = Ok (msub (mmul W S) M).
Proof.
  intros HM HS HW HG. unfold gradsubprob. rewrite (assign_grad RL G M W S r k k); [|auto|apply HM|apply HW|apply HS].
  f_equal. symmetry. apply mat_mk. { apply msub_mat'. apply (mmul_mat _ _ r k k); auto. }
  intros i j Hi Hj. rewrite (el_msub _ _ r k) by (auto; apply (mmul_mat _ _ r k k); auto).
  rewrite (el_mmul _ _ r k k) by auto. auto.
Qed.

Context (V : tensor N) (R : nat).
Let o := order V.
Hypothesis Hsh : svd_shaped (svd LA).
Let solve := pinv_solve (svd LA) R.

Lemma mttkrp_mat W n : is_mat (mttkrp V W n R : tensor N) (nth n (lens V) 0%nat) R.
Proof. split; [reflexivity|apply tabulate_wf]. Qed.
Lemma hgram_mat W n : is_mat (hgram W n R : tensor N) R R.
Proof. split; [reflexivity|apply tabulate_wf]. Qed.
Lemma rhs_mat F W n : is_mat (als_rhs V F W R n) (nth n (lens V) 0%nat) R.
Proof. apply madd_mat, mttkrp_mat. Qed.
Lemma lhs_mat lambda W n : is_mat (als_lhs lambda W R n : tensor N) R R.
Proof. apply madd_mat, hgram_mat. Qed.
Lemma solve_mat M S r : is_mat M r R -> is_mat S R R -> is_mat (solve M S) r R.
Proof. intros. apply (SVD_solve_pinv M (zeros [r; R]) S r R); auto. Qed.
Lemma update_factors lambda F W n : factors_ok V W R -> (n < o)%nat -> factors_ok V (als_update solve lambda V F R W n) R.
Proof.
  intros HW Hn. apply setf_factors; auto. apply solve_mat; [apply rhs_mat|apply lhs_mat].
Qed.
Lemma upto_S lambda F W n : als_upto solve lambda V F R (S n) W = als_update solve lambda V F R (als_upto solve lambda V F R n W) n.
Proof. unfold als_upto. rewrite seq_S, fold_left_app. reflexivity. Qed.
Lemma upto_factors lambda F W n : factors_ok V W R -> (n <= o)%nat -> factors_ok V (als_upto solve lambda V F R n W) R.
Proof.
  intros HW. induction n; intros Hn; [exact HW|]. rewrite upto_S. apply update_factors; [apply IHn|]; lia.
Qed.
Lemma sweep_factors lambda F W : factors_ok V W R -> factors_ok V (als_sweep solve lambda V F R W) R.
Proof. intros. apply upto_factors; auto. Qed.

Lemma W_lget W n : factors_ok V W R -> (n < o)%nat -> lget W n = Ok (fac W n).
Proof. intros (_ & HL & _) H. apply lget_ok. fold o in HL. lia. Qed.
Lemma F_lget F n : mats_ok V F R -> (n < o)%nat -> lget F n = Ok (fac F n).
Proof. intros (HL & _) H. apply lget_ok. fold o in HL. lia. Qed.
Lemma W_dims W n : factors_ok V W R -> (n < o)%nat ->
  nrow (fac W n) = nth n (lens V) 0%nat /\ ncol (fac W n) = R.
Proof.
  intros (_ & _ & H) Hn. specialize (H n Hn). split; [eapply is_mat_nrow|eapply is_mat_ncol]; eauto.
Qed.

(** the common parts of a mode update *)
Lemma index_ok i : (2 <= o <= 31)%nat -> (i < o)%nat -> forall nc,
  make_index o (map Some (map chr (swapped o i) ++ [0%Z])) (fun m => lget (lens V) m) nc
  = Ok (map Some (swapped o i), map Some (map (fun m => nth m (lens V) 0%nat) (firstn (o - 1) (swapped o i)) ++ [nc])).
Proof.
  intros. apply make_index_ok; auto; [lia|]. intros m Hm. apply lget_ok. auto.
Qed.
Lemma gram_ok Sm W i : (2 <= o)%nat -> factors_ok V W R -> (i < o)%nat -> lens Sm = [R; R] ->
  gram_index Sm W o (map Some (swapped o i)) = Ok (hgram W i R).
Proof.
  intros H2 HW Hi HS. destruct HW as (HwV & HL & HWm).
  apply (gram_index_ok RL Sm W o R (swapped o i) i); auto.
  - apply (factors_cols V W R). split; auto.
  - apply swapped_perm; auto.
  - apply swapped_last; auto.
Qed.

(** ** alsCP *)
Theorem alsCP_mode_ok F W Sm i s : (2 <= o <= 10)%nat -> lens V = repeat s o -> factors_ok V W R -> mats_ok V F R ->
  (i < o)%nat -> lens Sm = [R; R] ->
  alsCP_mode LA V F i (W, Sm, lbuf o) = Ok (als_update solve n0 V F R W i, hgram W i R, lbuf o).
Proof.
  intros H2 Hcube HW HF Hi HSm. unfold alsCP_mode. fold o. rewrite swap_lbuf by auto. cbn [bind].
  rewrite (W_lget W i) by auto. cbn [bind]. destruct (W_dims W i HW Hi) as [Hr Hc]. rewrite Hr, Hc.
  rewrite index_ok by (auto; lia). cbn [bind].
  assert (Hn : forall m, (m < o)%nat -> nth m (lens V) 0%nat = s).
  { intros m Hm. rewrite Hcube. apply nth_rep; auto. }
  replace (map (fun m => nth m (lens V) 0%nat) (firstn (o - 1) (swapped o i))) with (repeat s (o - 1)).
  2:{ assert (Hl : length (swapped o i) = o) by (unfold swapped; rewrite swapl_length, seq_length; auto).
      apply nth_ext with (d:=0%nat) (d':=0%nat).
      { rewrite repeat_length, map_length, firstn_length. lia. }
      rewrite repeat_length. intros k Hk.
      rewrite nth_rep by auto. rewrite (nth_map_lt _ _ _ 0%nat) by (rewrite firstn_length; lia).
      rewrite nth_firstn by auto. symmetry. apply Hn.
      rewrite swapped_nth by lia. natcases. }
  rewrite (KhatriRao_contract_ok RL V W R s (swapped o i) ltac:(fold o; lia) Hcube HW (swapped_perm o i Hi) _ i).
  2:{ apply swapped_last; auto. }
  2:{ cbn. rewrite Hn; auto. }
  cbn [bind]. rewrite gram_ok by (auto; lia). cbn [bind]. rewrite (F_lget F i) by auto. cbn [bind].
  rewrite (addto_madd _ _ (nth i (lens V) 0%nat) R); [|apply mttkrp_mat|apply HF; auto]. cbn [bind].
  destruct (SVD_solve_pinv (als_rhs V F W R i) (fac W i) (als_lhs n0 W R i) (nth i (lens V) 0%nat) R) as [E _]; auto.
  { apply rhs_mat. } { apply HW; auto. } { apply lhs_mat. }
  rewrite lhs_zero in E. unfold als_rhs in E. rewrite E. cbn [bind].
  rewrite lput_ok by (destruct HW as (_ & -> & _); auto). cbn [bind]. rewrite swap_back by auto. cbn [bind].
  unfold als_update, setf. rewrite lhs_zero. reflexivity.
Qed.
Theorem alsCP_sweep_ok F W Sm s : (2 <= o <= 10)%nat -> lens V = repeat s o -> factors_ok V W R -> mats_ok V F R ->
  lens Sm = [R; R] ->
  exists Sm', alsCP_sweep LA V F (W, Sm, lbuf o) = Ok (als_sweep solve n0 V F R W, Sm', lbuf o) /\ lens Sm' = [R; R].
Proof.
  intros H2 Hcube HW HF HSm. unfold alsCP_sweep. fold o.
  destruct (for_inv (fun i st => exists Sm', st = (als_upto solve n0 V F R i W, Sm', lbuf o) /\ lens Sm' = [R; R])
     (alsCP_mode LA V F) 0 o (W, Sm, lbuf o)) as (st & E & Sm' & -> & HS').
  - lia.
  - exists Sm. auto.
  - intros i st Hi (Sm' & -> & HS'). rewrite (alsCP_mode_ok F _ Sm' i s); auto; try lia.
    + eexists; split; [reflexivity|]. rewrite upto_S. eauto.
    + apply upto_factors; auto. lia.
  - exists Sm'. auto.
Qed.

(** ** alsCP_DT and alsCP_DT_sub *)
Definition grad_of lambda F W n : tensor N :=
  msub (mmul (fac W n) (als_lhs lambda W R n)) (als_rhs V F W R n).

Section DT.
Context (parent sibling : smap str) (fuel : nat).
Hypothesis Htree : tree_maps o parent sibling.
Hypothesis Hgood : (o = 4 \/ 6 <= o)%nat.
Hypothesis Ho : (1 <= o <= 31)%nat.
Hypothesis Hfuel : (o < fuel)%nat.

Theorem DT_mode_ok F G W Sm lambda mp i : factors_ok V W R -> mats_ok V F R -> mats_ok V G R -> (i < o)%nat -> lens Sm = [R; R] ->
  valid_at V R W i mp ->
  exists mp', alsCP_DT_mode LA fuel parent sibling V F (mscal lambda (mid R)) i (W, G, Sm, mp, lbuf o)
    = Ok (als_update solve lambda V F R W i, setf G i (grad_of lambda F W i), als_lhs lambda W R i, mp', lbuf o) /\
    valid_at V R W i mp' /\
    (forall s T, mp' s = Some T -> mp s = Some T \/ exists x' y', (x' <= i <= y')%nat /\ (y' < o)%nat /\ s = range_str x' y').
Proof.
  intros HW HF HG Hi HSm Hv. unfold alsCP_DT_mode. fold o. rewrite swap_lbuf by auto. cbn [bind].
  rewrite (W_lget W i) by auto. cbn [bind]. destruct (W_dims W i HW Hi) as [Hr Hc]. rewrite Hc.
  rewrite index_ok by (auto; lia). cbn [bind].
  destruct (dt_M_ok RL V R Ho parent sibling Htree Hgood W i fuel mp HW Hi Hfuel Hv) as (mp' & E & Hv' & Hnew).
  rewrite E. cbn [bind]. rewrite gram_ok by (auto; lia). cbn [bind].
  rewrite (addto_madd _ _ R R); [|apply hgram_mat|apply mscal_mat, mdiag_mat]. cbn [bind].
  rewrite (F_lget F i) by auto. cbn [bind].
  rewrite (addto_madd _ _ (nth i (lens V) 0%nat) R); [|apply mttkrp_mat|apply HF; auto]. cbn [bind].
  fold (als_rhs V F W R i). fold (als_lhs lambda W R i).
  rewrite (F_lget G i) by auto. cbn [bind].
  rewrite (gradsub_ok _ _ _ _ (nth i (lens V) 0%nat) R); [|apply rhs_mat|apply lhs_mat|apply HW; auto|apply HG; auto].
  cbn [bind]. rewrite lput_ok by (destruct HG as (-> & _); auto). cbn [bind].
  destruct (SVD_solve_pinv (als_rhs V F W R i) (fac W i) (als_lhs lambda W R i) (nth i (lens V) 0%nat) R) as [E2 _]; auto.
  { apply rhs_mat. } { apply HW; auto. } { apply lhs_mat. }
  rewrite E2. cbn [bind].
  rewrite lput_ok by (destruct HW as (_ & -> & _); auto). cbn [bind]. rewrite swap_back by auto. cbn [bind].
  exists mp'. auto.
Qed.
Theorem DT_sub_mode_ok F G W Sm lambda mp i :
  (neqb lambda n0 = true -> lambda = n0) ->
  factors_ok V W R -> (forall m i j, (m < o)%nat -> (i < nth m (lens V) 0%nat)%nat -> (j < R)%nat -> el (fac F m) i j = n0) ->
  mats_ok V G R -> (i < o)%nat -> lens Sm = [R; R] ->
  valid_at V R W i mp ->
  exists mp', DT_sub_mode LA fuel parent sibling V lambda (mscal lambda (mid R)) i (W, G, Sm, mp, lbuf o)
    = Ok (als_update solve lambda V F R W i, setf G i (grad_of lambda F W i), als_lhs lambda W R i, mp', lbuf o) /\
    valid_at V R W i mp' /\
    (forall s T, mp' s = Some T -> mp s = Some T \/ exists x' y', (x' <= i <= y')%nat /\ (y' < o)%nat /\ s = range_str x' y').
Proof.
  intros Hl HW HF HG Hi HSm Hv. unfold DT_sub_mode. fold o. rewrite swap_lbuf by auto. cbn [bind].
  rewrite (W_lget W i) by auto. cbn [bind]. destruct (W_dims W i HW Hi) as [Hr Hc]. rewrite Hc.
  rewrite index_ok by (auto; lia). cbn [bind].
  destruct (dt_M_ok RL V R Ho parent sibling Htree Hgood W i fuel mp HW Hi Hfuel Hv) as (mp' & E & Hv' & Hnew).
  rewrite E. cbn [bind]. rewrite gram_ok by (auto; lia). cbn [bind].
  assert (ES : add_regul lambda (hgram W i R) (mscal lambda (mid R)) = Ok (als_lhs lambda W R i)).
  { unfold add_regul. destruct (neqb lambda n0); cbn [negb].
    - rewrite Hl by auto. rewrite lhs_zero. auto.
    - rewrite (addto_madd _ _ R R); [|apply hgram_mat|apply mscal_mat, mdiag_mat]. auto. }
  rewrite ES. cbn [bind].
  assert (EM : mttkrp V W i R = als_rhs V F W R i).
  { unfold als_rhs. symmetry. apply (madd_zero_r _ _ (nth i (lens V) 0%nat) R); [apply mttkrp_mat|]. intros. apply HF; auto. }
  rewrite EM.
  rewrite (F_lget G i) by auto. cbn [bind].
  rewrite (gradsub_ok _ _ _ _ (nth i (lens V) 0%nat) R); [|apply rhs_mat|apply lhs_mat|apply HW; auto|apply HG; auto].
  cbn [bind]. rewrite lput_ok by (destruct HG as (-> & _); auto). cbn [bind].
  destruct (SVD_solve_pinv (als_rhs V F W R i) (fac W i) (als_lhs lambda W R i) (nth i (lens V) 0%nat) R) as [E2 _]; auto.
  { apply rhs_mat. } { apply HW; auto. } { apply lhs_mat. }
  rewrite E2. cbn [bind].
  rewrite lput_ok by (destruct HW as (_ & -> & _); auto). cbn [bind]. rewrite swap_back by auto. cbn [bind].
  exists mp'. auto.
Qed.

(** the table during a sweep: every entry is an interval of modes starting at or before i; if it
    reaches i or beyond it is valid for the current factors *)
Definition table_ok (W : list (tensor N)) (i : nat) (mp : smap (tensor N)) : Prop :=
  forall s T, mp s = Some T -> exists x y, s = range_str x y /\ (x <= y)%nat /\ (x <= i)%nat /\ (y < o)%nat /\
    ((i <= y)%nat -> node V R W x y T).
Lemma table_valid W i mp : table_ok W i mp -> valid_at V R W i mp.
Proof.
  intros H x y T Hx Hy E. destruct (H _ _ E) as (x' & y' & Es & H1 & H2 & H3 & H4). fold o in Hy.
  apply range_str_inj in Es as [-> ->]; try lia. apply H4. lia.
Qed.
Lemma table_next W i A mp mp' : factors_ok V W R -> (i < o)%nat -> table_ok W i mp -> valid_at V R W i mp' ->
  (forall s T, mp' s = Some T -> mp s = Some T \/ exists x' y', (x' <= i <= y')%nat /\ (y' < o)%nat /\ s = range_str x' y') ->
  table_ok (setf W i A) (S i) mp'.
Proof.
  intros HW Hi Hmp Hv Hnew s T E.
  assert (Hs : exists x y, s = range_str x y /\ (x <= y)%nat /\ (x <= i)%nat /\ (y < o)%nat).
  { destruct (Hnew s T E) as [E0|(x & y & H1 & H2 & H3)].
    - destruct (Hmp s T E0) as (x & y & H1 & H2 & H3 & H4 & _). eauto 10.
    - exists x, y. repeat split; auto; lia. }
  destruct Hs as (x & y & -> & H1 & H2 & H3). exists x, y. repeat split; auto. intros H4.
  apply (node_ext V R Ho W (setf W i A) x y T).
  - intros m Hm Hout. rewrite fac_setf by (destruct HW as (_ & -> & _); auto). destruct (Nat.eqb_spec m i); auto. lia.
  - apply Hv; auto. lia.
Qed.
Lemma table_empty W : table_ok W 0 sempty.
Proof. intros s T E. discriminate. Qed.

(** gradients stored by a sweep: that of mode n at the factors just before mode n was updated *)
Definition sweep_grads lambda F W : list (tensor N) :=
  map (fun n => grad_of lambda F (als_upto solve lambda V F R n W) n) (seq 0 o).

Lemma sweep_core (mode : nat -> sweep_state (N:=N) -> res sweep_state) lambda F G W Sm :
  factors_ok V W R -> mats_ok V G R -> lens Sm = [R; R] ->
  (forall G W Sm mp i, factors_ok V W R -> mats_ok V G R -> (i < o)%nat -> lens Sm = [R; R] -> valid_at V R W i mp ->
    exists mp', mode i (W, G, Sm, mp, lbuf o)
    = Ok (als_update solve lambda V F R W i, setf G i (grad_of lambda F W i), als_lhs lambda W R i, mp', lbuf o) /\
    valid_at V R W i mp' /\
    (forall s T, mp' s = Some T -> mp s = Some T \/ exists x' y', (x' <= i <= y')%nat /\ (y' < o)%nat /\ s = range_str x' y')) ->
  exists Sm' mp', for_ 0 o mode (W, G, Sm, sempty, lbuf o)
    = Ok (als_sweep solve lambda V F R W, sweep_grads lambda F W, Sm', mp', lbuf o) /\ lens Sm' = [R; R].
Proof.
  intros HW HG HSm Hmode.
  destruct (for_inv (fun i st => exists Gi Sm' mp', st = (als_upto solve lambda V F R i W, Gi, Sm', mp', lbuf o) /\
      mats_ok V Gi R /\ lens Sm' = [R; R] /\ table_ok (als_upto solve lambda V F R i W) i mp' /\
      (forall n, (n < i)%nat -> fac Gi n = grad_of lambda F (als_upto solve lambda V F R n W) n))
     mode 0 o (W, G, Sm, sempty, lbuf o)) as (st & E & Gi & Sm' & mp' & -> & HGi & HS' & _ & Hgr).
  - lia.
  - exists G, Sm, sempty. split; [reflexivity|]. split; auto. split; auto. split; [apply table_empty|]. intros; lia.
  - intros i st Hi (Gi & Sm' & mp' & -> & HGi & HS' & Ht & Hgr).
    assert (HWi : factors_ok V (als_upto solve lambda V F R i W) R) by (apply upto_factors; auto; lia).
    destruct (Hmode Gi _ Sm' mp' i HWi HGi ltac:(lia) HS' (table_valid _ _ _ Ht)) as (mp2 & E & Hv & Hnew).
    rewrite E. eexists. split; [reflexivity|]. rewrite <- upto_S.
    destruct HGi as [HGl HGm].
    exists (setf Gi i (grad_of lambda F (als_upto solve lambda V F R i W) i)), (als_lhs lambda (als_upto solve lambda V F R i W) R i), mp2.
    split; [reflexivity|]. split; [|split; [|split]].
    + split; [rewrite setf_length; auto|]. intros m Hm. fold o in Hm, HGl. rewrite fac_setf by lia.
      destruct (Nat.eqb_spec m i); [subst|apply HGm; auto]. apply msub_mat', (mmul_mat _ _ _ R R); [|apply lhs_mat].
      apply HWi. auto.
    + apply lhs_mat.
    + rewrite upto_S. eapply table_next; eauto. lia.
    + intros n Hn. fold o in HGl. rewrite fac_setf by lia. destruct (Nat.eqb_spec n i); subst; auto. apply Hgr. lia.
  - exists Sm', mp'. split; auto. etransitivity; [exact E|]. unfold als_sweep. fold o. destruct HGi as [HGl _]. fold o in HGl.
    enough (EG : Gi = sweep_grads lambda F W) by (rewrite EG; reflexivity). unfold sweep_grads. apply nth_ext with (d:=tnil) (d':=tnil).
    + rewrite map_length, seq_length. auto.
    + rewrite HGl. intros n Hn. fold (fac Gi n). rewrite Hgr by auto.
      rewrite (nth_map_lt _ _ _ 0%nat) by (rewrite seq_length; auto). rewrite nth_seq by auto. auto.
Qed.

Lemma Normalize_rescaled W : factors_ok V W R -> Normalize W o = Ok (rescaled W).
Proof.
  intros HW. assert (HL : length W = o) by apply HW. rewrite <- HL.
  rewrite (Normalize_scales RL W R). 2:{ apply (factors_cols V W R). auto. }
  f_equal. unfold rescaled. replace (bigprod W norm2) with (bigprod (seq 0 (length W)) (fun m => norm2 (fac W m))); auto.
  rewrite <- (bigprod_map (fac W)). f_equal. apply nth_ext with (d:=tnil) (d':=tnil).
  - rewrite map_length, seq_length. auto.
  - intros n Hn. rewrite map_length, seq_length in Hn. rewrite (nth_map_lt _ _ _ 0%nat) by (rewrite seq_length; auto).
    rewrite nth_seq by auto. auto.
Qed.

Theorem alsCP_DT_sweep_ok F G W Sm lambda : factors_ok V W R -> mats_ok V F R -> mats_ok V G R -> lens Sm = [R; R] ->
  exists Sm', alsCP_DT_sweep LA fuel parent sibling V F (mscal lambda (mid R)) W G Sm (lbuf o)
    = Ok (rescaled (als_sweep solve lambda V F R W), sweep_grads lambda F W, Sm', lbuf o) /\ lens Sm' = [R; R].
Proof.
  intros HW HF HG HSm. unfold alsCP_DT_sweep. fold o.
  destruct (sweep_core (alsCP_DT_mode LA fuel parent sibling V F (mscal lambda (mid R))) lambda F G W Sm) as (Sm' & mp' & E & HS'); auto.
  { intros. apply DT_mode_ok; auto. }
  rewrite E. cbn [bind]. rewrite Normalize_rescaled by (apply sweep_factors; auto). cbn [bind]. eauto.
Qed.
Theorem DT_sub_sweep_ok F G W Sm lambda : (neqb lambda n0 = true -> lambda = n0) -> factors_ok V W R ->
  (forall m i j, (m < o)%nat -> (i < nth m (lens V) 0%nat)%nat -> (j < R)%nat -> el (fac F m) i j = n0) ->
  mats_ok V G R -> lens Sm = [R; R] ->
  exists Sm', DT_sub_sweep LA fuel parent sibling V lambda (mscal lambda (mid R)) W G Sm (lbuf o)
    = Ok (rescaled (als_sweep solve lambda V F R W), sweep_grads lambda F W, Sm', lbuf o) /\ lens Sm' = [R; R].
Proof.
  intros Hl HW HF HG HSm. unfold DT_sub_sweep. fold o.
  destruct (sweep_core (DT_sub_mode LA fuel parent sibling V lambda (mscal lambda (mid R))) lambda F G W Sm) as (Sm' & mp' & E & HS'); auto.
  { intros. apply DT_sub_mode_ok; auto. }
  rewrite E. cbn [bind]. rewrite Normalize_rescaled by (apply sweep_factors; auto). cbn [bind]. eauto.
Qed.
End DT.
End P.
