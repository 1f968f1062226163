(** A dimension-tree sweep in rounded arithmetic *)
From Coq Require Import List ZArith Reals Lra Lia Bool Arith Permutation.
From Verif Require Import Base Num NumR Tensor Spec Spec27 Spec28 Spec29 MCommon MCP PBase PTensor PSum PMttkrp PMat PKhatri PTree PDT PDTSweep PGrad PDrivers PRnd PRndDT PRndDT2 PRndKR PRndGrad PRndGrad2 PRndALS.
Import ListNotations.
Local Close Scope R_scope.
Local Open Scope nat_scope.

(** Normalize over any number structure: it returns, and every factor keeps its shape *)
Lemma raw_scal {N : num} (C A : tensor N) a r c : lens C = [r; c] -> lens A = [r; c] ->
  assign false C sij [mkTerm a [(A, sij)]] = Ok (mk r c (fun i j => (a * (el A i j * n1))%num)).
Proof.
  intros HC HA. apply (assign_mat (d3 r c 0)); [discriminate|auto| |].
  - intros t H; simpl in H; repeat (destruct H as [H|H]; [subst t|]); try contradiction;
    intros p H; simpl in H; repeat (destruct H as [H|H]; [subst p|]); try contradiction; simpl; unfold d3; simpl; auto.
  - intros i j Hi Hj. cbv -[nadd nmul nopp nsub n0 n1 bigsum at_ el seq car]. reflexivity.
Qed.
(** the product of the norms, as the program multiplies them, and the coefficient of factor m *)
Definition norm_prod {N : num} (W : list (tensor N)) : N := fold_left (fun p A => (p * norm2 A)%num) W n1.
Definition norm_coef {N : num} (W : list (tensor N)) (m : nat) : N := (nroot (length W) (norm_prod W) / norm2 (fac W m))%num.
Lemma Normalize_raw {N : num} (W : list (tensor N)) rk : (forall m, m < length W -> exists r, is_mat (fac W m) r rk) ->
  exists W', Normalize W (length W) = Ok W' /\ length W' = length W /\
  forall m, m < length W -> fac W' m = mk (nrow (fac W m)) rk (fun i j => (norm_coef W m * (el (fac W m) i j * n1))%num).
Proof.
  intros HW. unfold Normalize. set (o := length W).
  destruct (for_inv (fun i (x : N) => x = fold_left (fun p A => (p * norm2 A)%num) (firstn i W) n1)
    (fun i norm => Wi <- lget W i ;; Ok (norm * norm2 Wi)%num) 0 o n1) as (x & E & Hx).
  - lia.
  - reflexivity.
  - intros i x Hi ->. rewrite (lget_ok W i tnil) by (fold o; lia). cbn [bind]. eexists; split; [reflexivity|].
    rewrite (firstn_snoc_nth W i tnil) by (fold o; lia). rewrite fold_left_app. reflexivity.
  - rewrite E. cbn [bind]. rewrite Hx. unfold o. rewrite firstn_all. fold o.
    destruct (for_inv (fun i (W' : list (tensor N)) => length W' = o /\
        forall m, m < o -> fac W' m = if m <? i then mk (nrow (fac W m)) rk (fun a b => (norm_coef W m * (el (fac W m) a b * n1))%num) else fac W m)
      (fun i W0 => Wi <- lget W0 i ;; let norm_Wi := norm2 Wi in
         Wi' <- assign false Wi sij [mkTerm (nroot o (fold_left (fun p A => (p * norm2 A)%num) W n1) / norm_Wi)%num [(Wi, sij)]] ;; lput W0 i Wi') 0 o W) as (W' & E' & HL & HF).
    + lia.
    + split; auto.
    + intros i W' Hi [HL HF]. rewrite (lget_ok W' i tnil) by lia. cbn [bind]. cbv zeta.
      fold (fac W' i). rewrite HF by lia. destruct (Nat.ltb_spec i i); [lia|].
      destruct (HW i) as [r [Hr Hr']]; [fold o; lia|].
      rewrite (raw_scal _ _ _ r rk) by exact Hr. cbn [bind]. rewrite lput_ok by lia.
      eexists; split; [reflexivity|]. split; [rewrite lset_length; auto|].
      intros m Hm. unfold fac at 1. rewrite lset_nth by lia. destruct (Nat.eqb_spec m i).
      * subst. destruct (Nat.ltb_spec i (S i)); [|lia]. unfold nrow. rewrite Hr. reflexivity.
      * fold (fac W' m). rewrite HF by auto. destruct (Nat.ltb_spec m i), (Nat.ltb_spec m (S i)); auto; lia.
    + exists W'. split; [exact E'|]. split; [exact HL|]. intros m Hm. rewrite HF by auto. destruct (Nat.ltb_spec m o); [reflexivity|lia].
Qed.
Lemma Normalize_factors {N : num} (V : tensor N) (W : list (tensor N)) rk : factors_ok V W rk ->
  exists W', Normalize W (order V) = Ok W' /\ factors_ok V W' rk.
Proof.
  intros (HV & HL & HW). rewrite <- HL. destruct (Normalize_raw W rk) as (W' & E & HL' & HF).
  { intros m Hm. eexists. apply HW. lia. }
  exists W'. split; [exact E|]. split; [auto|]. split; [lia|]. intros m Hm. rewrite HF by lia.
  destruct (HW m Hm) as [Em _]. unfold nrow. rewrite Em. apply mk_mat.
Qed.

Section Rnd.
Context (rnd : Rdefinitions.R -> Rdefinitions.R) (u : Rdefinitions.R) (RE : rel_err rnd u).
Notation N := (Fl rnd).
Context (LA : lapack N) (V : tensor N) (rk : nat).
Let o := order V.
Hypothesis Hsh : svd_shaped (svd LA).
Context (parent sibling : smap str) (fuel : nat).
Hypothesis Htree : tree_maps o parent sibling.
Hypothesis Hgood : o = 4 \/ 6 <= o.
Hypothesis Ho : 1 <= o <= 31.
Hypothesis Hfuel : o < fuel.

Let valid_at := valid_at rnd u V rk.
Definition news (mp mp' : smap (tensor N)) (i : nat) : Prop :=
  forall s T, mp' s = Some T -> mp s = Some T \/ exists x' y', x' <= i <= y' /\ y' < o /\ s = range_str x' y'.

Definition mode_good (mode : nat -> sweep_state (N:=N) -> res (sweep_state (N:=N))) lambda F : Prop :=
  forall G W Sm mp i, factors_ok V W rk -> mats_ok V G rk -> i < o -> lens Sm = [rk; rk] -> valid_at W i mp ->
    exists mp' A g' Sm', mode i (W, G, Sm, mp, lbuf o) = Ok (setf W i A, setf G i g', Sm', mp', lbuf o) /\
    is_mat A (nth i (lens V) 0) rk /\ is_mat g' (nth i (lens V) 0) rk /\ lens Sm' = [rk; rk] /\
    als_solve_within u (mode_roundings (lens V) i) (svd LA) lambda V F rk W i (setf W i A) /\ als_grad_within u lambda V F rk W i g' /\
    valid_at W i mp' /\ news mp mp' i.

Lemma mode_prefix G W (Sm : tensor N) mp i : factors_ok V W rk -> mats_ok V G rk -> i < o -> lens Sm = [rk; rk] -> valid_at W i mp ->
  exists mp' M S, dt_M fuel parent sibling V W mp i = Ok (mp', M) /\ mttkrp_within u (mode_roundings (lens V) i) V W i rk M /\
    gram_index Sm W o (map Some (swapped o i)) = Ok S /\ lens S = [rk; rk] /\
    mrel rnd u (gram_roundings (lens V) i) rk rk S (@hgram_at Rnum (map reals W) i) (@hgram_at Rnum (map absols W) i) /\
    valid_at W i mp' /\ news mp mp' i /\
    lget W i = Ok (fac W i) /\ ncol (fac W i) = rk /\ lget G i = Ok (fac G i) /\ lens (fac G i) = [nth i (lens V) 0; rk].
Proof.
  intros HW HG Hi HS Hv.
  destruct (dt_M_ok rnd u RE V rk Ho parent sibling Htree Hgood W i fuel mp HW Hi Hfuel Hv) as (mp' & M & E & HM & Hv' & Hnew).
  pose proof HW as (HwV & HL & HWm). destruct HG as (HGl & HGm). fold o in HL, HGl, HWm, HGm.
  destruct (gram_index_r rnd u RE Sm W o rk (swapped o i) i) as (S & ES & HS'); auto; try lia.
  { eapply factors_cols; eauto. } { apply swapped_perm; lia. } { apply swapped_last; lia. }
  exists mp', M, S. split; [exact E|]. split; [exact HM|]. split; [exact ES|]. split; [apply HS'|].
  unfold o in HS'. rewrite (kgram_roundings rnd V W rk i HW) in HS'.
  split; [exact HS'|]. split; [exact Hv'|]. split; [exact Hnew|]. split; [apply lget_ok; lia|].
  destruct (HWm i Hi) as [EW _]. split; [unfold ncol; rewrite EW; reflexivity|]. split; [apply lget_ok; lia|]. apply HGm; auto.
Qed.

Lemma DT_mode_good lambda F regul : @mk_regul N rk lambda = Ok regul -> mats_ok V F rk ->
  mode_good (alsCP_DT_mode LA fuel parent sibling V F regul) lambda F.
Proof.
  intros Er HF G W Sm mp i HW HG Hi HS Hv.
  destruct (mode_prefix G W Sm mp i HW HG Hi HS Hv) as (mp' & M & S & E1 & HM & E2 & HSl & HS' & Hv' & Hnew & E3 & E4 & E5 & HGi).
  unfold alsCP_DT_mode. fold o. rewrite swap_lbuf by auto. cbn [bind]. rewrite E3. cbn [bind]. rewrite E4.
  rewrite (make_index_ok o i _ _ (fun m => nth m (lens V) 0)); [|lia|lia|intros m Hm; apply lget_ok; auto]. cbn [bind].
  rewrite E1. cbn [bind]. rewrite E2. cbn [bind].
  destruct (lhs_r rnd u RE V W rk i lambda Hi ltac:(fold o; lia) S HS' regul Er) as (S2 & ES2 & HS2). rewrite ES2. cbn [bind].
  destruct HF as (HFl & HFm). rewrite (lget_ok F i tnil) by (rewrite HFl; exact Hi). cbn [bind]. fold (fac F i).
  destruct (roundings_le rnd u RE V i 0%R) as [K3 K4]; [exact Hi|fold o; lia|].
  destruct (rhs_r rnd u RE V F W rk i lambda Hi ltac:(fold o; lia) (mode_roundings (lens V) i) M ltac:(lia) HM (HFm i Hi)) as (M2 & EM2 & HM2). rewrite EM2. cbn [bind].
  rewrite E5. cbn [bind].
  destruct (solve_step_r rnd u RE V F W rk i lambda HW Hi _ LA M2 S2 Hsh HM2 HS2) as (A & EA & HA & Hstep).
  destruct (grad_step_r rnd u RE V F W rk i lambda HW Hi ltac:(fold o; lia) M2 S2 (fac G i) HGi HM2 HS2) as (g' & Eg & Hg & Hgrad).
  rewrite Eg. cbn [bind]. destruct HG as (HGl & HGm). rewrite lput_ok by (rewrite HGl; exact Hi). cbn [bind]. rewrite EA. cbn [bind].
  rewrite lput_ok by (destruct HW as (_ & -> & _); exact Hi). cbn [bind]. rewrite swap_back by auto. cbn [bind].
  exists mp', A, g', S2. split; [reflexivity|]. split; [exact HA|]. split; [exact Hg|]. split; [apply HS2|]. auto.
Qed.
Lemma DT_sub_mode_good lambda regul : @mk_regul N rk lambda = Ok regul ->
  mode_good (DT_sub_mode LA fuel parent sibling V lambda regul) lambda [].
Proof.
  intros Er G W Sm mp i HW HG Hi HS Hv.
  destruct (mode_prefix G W Sm mp i HW HG Hi HS Hv) as (mp' & M & S & E1 & HM & E2 & HSl & HS' & Hv' & Hnew & E3 & E4 & E5 & HGi).
  unfold DT_sub_mode. fold o. rewrite swap_lbuf by auto. cbn [bind]. rewrite E3. cbn [bind]. rewrite E4.
  rewrite (make_index_ok o i _ _ (fun m => nth m (lens V) 0)); [|lia|lia|intros m Hm; apply lget_ok; auto]. cbn [bind].
  rewrite E1. cbn [bind]. rewrite E2. cbn [bind].
  assert (ES : exists S2, add_regul (N:=N) lambda S regul = Ok S2 /\
     mrel rnd u (gram_roundings (lens V) i + 1) rk rk S2 (@el Rnum (@als_lhs Rnum lambda (map reals W) rk i)) (@el Rnum (@als_lhs Rnum (Rabs lambda) (map absols W) rk i))).
  { unfold add_regul. destruct (@neqb N lambda n0) eqn:El; cbn [negb].
    - exists S. split; [reflexivity|]. apply (lhs_r0 rnd u RE); [exact Hi|fold o; lia| |exact HS'].
      change (Reqb lambda 0 = true) in El. unfold Reqb in El. destruct (Req_EM_T lambda 0); [auto|discriminate].
    - apply (lhs_r rnd u RE V W rk i lambda Hi ltac:(fold o; lia) S HS' regul Er). }
  destruct ES as (S2 & ES2 & HS2). rewrite ES2. cbn [bind].
  assert (HM2 : mrel rnd u (mode_roundings (lens V) i + 1) (nth i (lens V) 0) rk M (@el Rnum (@als_rhs Rnum (reals V) (map reals ([] : list (tensor N))) (map reals W) rk i))
     (@el Rnum (@als_rhs Rnum (absols V) (map absols ([] : list (tensor N))) (map absols W) rk i))).
  { apply (rhs_r0 rnd u RE V [] W rk i lambda); auto; [fold o; lia|]. unfold fac. destruct i; reflexivity. }
  rewrite E5. cbn [bind].
  destruct (solve_step_r rnd u RE V [] W rk i lambda HW Hi _ LA M S2 Hsh HM2 HS2) as (A & EA & HA & Hstep).
  destruct (grad_step_r rnd u RE V [] W rk i lambda HW Hi ltac:(fold o; lia) M S2 (fac G i) HGi HM2 HS2) as (g' & Eg & Hg & Hgrad).
  rewrite Eg. cbn [bind]. destruct HG as (HGl & HGm). rewrite lput_ok by (rewrite HGl; exact Hi). cbn [bind]. rewrite EA. cbn [bind].
  rewrite lput_ok by (destruct HW as (_ & -> & _); exact Hi). cbn [bind]. rewrite swap_back by auto. cbn [bind].
  exists mp', A, g', S2. split; [reflexivity|]. split; [exact HA|]. split; [exact Hg|]. split; [apply HS2|]. auto.
Qed.

Definition table_ok (W : list (tensor N)) (i : nat) (mp : smap (tensor N)) : Prop :=
  forall s T, mp s = Some T -> exists x y, s = range_str x y /\ x <= y /\ x <= i /\ y < o /\
    (i <= y -> node rnd u V rk W x y T).
Lemma table_valid W i mp : table_ok W i mp -> valid_at W i mp.
Proof.
  intros H x y T Hx Hy E. destruct (H _ _ E) as (x' & y' & Es & H1 & H2 & H3 & H4). fold o in Hy.
  apply range_str_inj in Es as [-> ->]; try lia. apply H4. lia.
Qed.
Lemma table_next W i A mp mp' : factors_ok V W rk -> i < o -> table_ok W i mp -> valid_at W i mp' -> news mp mp' i ->
  table_ok (setf W i A) (S i) mp'.
Proof.
  intros HW Hi Hmp Hv Hnew s T E.
  assert (Hs : exists x y, s = range_str x y /\ x <= y /\ x <= i /\ y < o).
  { destruct (Hnew s T E) as [E0|(x & y & H1 & H2 & H3)].
    - destruct (Hmp s T E0) as (x & y & H1 & H2 & H3 & H4 & _). eauto 10.
    - exists x, y. repeat split; auto; lia. }
  destruct Hs as (x & y & -> & H1 & H2 & H3). exists x, y. repeat split; auto. intros H4.
  apply (node_ext rnd u V rk Ho W (setf W i A) x y T).
  - intros m Hm Hout. rewrite fac_setf by (destruct HW as (_ & -> & _); auto). destruct (Nat.eqb_spec m i); auto. lia.
  - apply Hv; auto. lia.
Qed.

Lemma sweep_good mode lambda F G W Sm : mode_good mode lambda F ->
  factors_ok V W rk -> mats_ok V G rk -> lens Sm = [rk; rk] ->
  exists Ws G' Sm' mp', for_ 0 o mode (W, G, Sm, sempty, lbuf o) = Ok (Ws o, G', Sm', mp', lbuf o) /\
    lens Sm' = [rk; rk] /\ mats_ok V G' rk /\ Ws 0 = W /\
    (forall n, n <= o -> factors_ok V (Ws n) rk) /\
    (forall n, n < o -> als_solve_within u (mode_roundings (lens V) n) (svd LA) lambda V F rk (Ws n) n (Ws (S n)) /\ als_grad_within u lambda V F rk (Ws n) n (fac G' n)).
Proof.
  intros Hmode HW HG HSm.
  destruct (for_inv (fun i st => exists Ws Gi Sm' mp', st = (Ws i, Gi, Sm', mp', lbuf o) /\
      mats_ok V Gi rk /\ lens Sm' = [rk; rk] /\ table_ok (Ws i) i mp' /\ Ws 0 = W /\
      (forall n, n <= i -> factors_ok V (Ws n) rk) /\
      (forall n, n < i -> als_solve_within u (mode_roundings (lens V) n) (svd LA) lambda V F rk (Ws n) n (Ws (S n)) /\ als_grad_within u lambda V F rk (Ws n) n (fac Gi n)))
     mode 0 o (W, G, Sm, sempty, lbuf o)) as (st & E & Ws & Gi & Sm' & mp' & -> & HGi & HS' & _ & H0 & H1 & H2).
  - lia.
  - exists (fun _ => W), G, Sm, sempty. split; [reflexivity|]. split; auto. split; auto. split; [intros s T E; discriminate|]. split; auto. split; auto. intros; lia.
  - intros i st Hi (Ws & Gi & Sm' & mp' & -> & HGi & HS' & Ht & H0 & H1 & H2).
    destruct (Hmode Gi (Ws i) Sm' mp' i (H1 i (Nat.le_refl i)) HGi ltac:(lia) HS' (table_valid _ _ _ Ht)) as (mp2 & A & g' & Sm2 & E & HA & Hg & HSm2 & Hst1 & Hst2 & Hv & Hnew).
    rewrite E. eexists. split; [reflexivity|].
    exists (fun n => if n <=? i then Ws n else setf (Ws i) i A), (setf Gi i g'), Sm2, mp2.
    destruct HGi as [HGl HGm]. fold o in HGl, HGm.
    assert (Eb : (S i <=? i) = false) by (apply Nat.leb_gt; lia).
    rewrite Eb. split; [reflexivity|]. split; [|split; [|split; [|split; [|split]]]].
    + split; [rewrite setf_length; auto|]. intros m Hm. fold o in Hm. rewrite fac_setf by lia.
      destruct (Nat.eqb_spec m i); [subst; exact Hg|apply HGm; auto].
    + exact HSm2.
    + eapply table_next; eauto. lia.
    + cbn. exact H0.
    + intros n Hn. destruct (Nat.leb_spec n i); [apply H1; auto|]. apply setf_factors; auto. fold o; lia.
    + intros n Hn. rewrite fac_setf by lia. destruct (Nat.eqb_spec n i) as [->|Hne].
      * rewrite Nat.leb_refl, Eb. split; [exact Hst1|exact Hst2].
      * assert (Ea : (n <=? i) = true) by (apply Nat.leb_le; lia). assert (Ec : (S n <=? i) = true) by (apply Nat.leb_le; lia).
        rewrite Ea, Ec. apply H2. lia.
  - exists Ws, Gi, Sm', mp'. split; [exact E|]. auto 10.
Qed.

Definition sweep_within lambda F W G' W' : Prop :=
  exists Ws : nat -> list (tensor N), Ws 0 = W /\
    (forall n, n < o -> als_solve_within u (mode_roundings (lens V) n) (svd LA) lambda V F rk (Ws n) n (Ws (S n)) /\ als_grad_within u lambda V F rk (Ws n) n (fac G' n)) /\
    Normalize (Ws o) o = Ok W'.

Theorem DT_sweep_r lambda F regul G W Sm : @mk_regul N rk lambda = Ok regul -> factors_ok V W rk -> mats_ok V F rk -> mats_ok V G rk -> lens Sm = [rk; rk] ->
  exists W' G' Sm', alsCP_DT_sweep LA fuel parent sibling V F regul W G Sm (lbuf o) = Ok (W', G', Sm', lbuf o) /\
    factors_ok V W' rk /\ mats_ok V G' rk /\ lens Sm' = [rk; rk] /\ sweep_within lambda F W G' W'.
Proof.
  intros Er HW HF HG HSm. unfold alsCP_DT_sweep. fold o.
  destruct (sweep_good _ lambda F G W Sm (DT_mode_good lambda F regul Er HF) HW HG HSm) as (Ws & G' & Sm' & mp' & E & H1 & H2 & H3 & H4 & H5).
  rewrite E. cbn [bind]. destruct (Normalize_factors V (Ws o) rk (H4 o (Nat.le_refl o))) as (W' & EN & HW'). fold o in EN. rewrite EN. cbn [bind].
  exists W', G', Sm'. split; [reflexivity|]. split; [exact HW'|]. split; [exact H2|]. split; [exact H1|]. exists Ws. auto.
Qed.
Theorem DT_sub_sweep_r lambda regul G W Sm : @mk_regul N rk lambda = Ok regul -> factors_ok V W rk -> mats_ok V G rk -> lens Sm = [rk; rk] ->
  exists W' G' Sm', DT_sub_sweep LA fuel parent sibling V lambda regul W G Sm (lbuf o) = Ok (W', G', Sm', lbuf o) /\
    factors_ok V W' rk /\ mats_ok V G' rk /\ lens Sm' = [rk; rk] /\ sweep_within lambda [] W G' W'.
Proof.
  intros Er HW HG HSm. unfold DT_sub_sweep. fold o.
  destruct (sweep_good _ lambda [] G W Sm (DT_sub_mode_good lambda regul Er) HW HG HSm) as (Ws & G' & Sm' & mp' & E & H1 & H2 & H3 & H4 & H5).
  rewrite E. cbn [bind]. destruct (Normalize_factors V (Ws o) rk (H4 o (Nat.le_refl o))) as (W' & EN & HW'). fold o in EN. rewrite EN. cbn [bind].
  exists W', G', Sm'. split; [reflexivity|]. split; [exact HW'|]. split; [exact H2|]. split; [exact H1|]. exists Ws. auto.
Qed.
End Rnd.
