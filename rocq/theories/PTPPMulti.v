(** Multilinearity of the TTMc: what the expansion used by the Tucker pairwise perturbation drops; orders it cannot handle *)
From Coq Require Import List ZArith Lia Bool Arith Permutation Ring.
From Verif Require Import Base Num Tensor Spec Spec2 Spec7 MCommon MCP MTucker PBase PTensor PSum PMttkrp PPart PMat PKhatri PGrad PMatAlg PResid
  PSolve PTree PDT PDTSweep PALS PDrivers PPP PPPSweep PPPDriver PPPMulti PPPBad PTtm PTucker PHosvd PTDT PSign PTSweep PTPP PTPP2.
Import ListNotations.

Section P.
Context {N : num} (RL : ring_laws N).
Let RT : ring_theory (@n0 N) n1 nadd nmul nsub nopp (@eq N) := RL.
Add Ring NringTM : RT.
Local Open Scope num_scope.

Lemma prod_zero_at (f : nat -> N) ms m : In m ms -> f m = n0 -> bigprod ms f = n0.
Proof.
  induction ms as [|x ms IH]; [intros []|]. intros Hi Hf. change (f x * bigprod ms f = n0). destruct Hi as [->|Hi].
  - rewrite Hf. ring.
  - rewrite IH by auto. ring.
Qed.
Lemma prod_one (a b : nat -> N) m (ms : list nat) : NoDup ms -> (forall q, In q ms -> q <> m -> b q = n0) ->
  bigprod ms (fun q => a q + b q) = bigprod ms a + bigsum ms (fun m' => bigprod ms (fun q => if Nat.eqb q m' then b q else a q)).
Proof.
  induction ms as [|x ms IH]; intros Hn Hb.
  - cbn. ring.
  - inversion Hn as [|y l Hnot Hnd]; subst. specialize (IH Hnd (fun q Hq => Hb q (or_intror Hq))).
    assert (Es : bigsum (x :: ms) (fun m0 => bigprod (x :: ms) (fun q => if Nat.eqb q m0 then b q else a q))
       = b x * bigprod ms a + a x * bigsum ms (fun m' => bigprod ms (fun q => if Nat.eqb q m' then b q else a q))).
    { transitivity (bigprod (x :: ms) (fun q => if Nat.eqb q x then b q else a q) + bigsum ms (fun m0 => bigprod (x :: ms) (fun q => if Nat.eqb q m0 then b q else a q))).
      { reflexivity. }
      f_equal.
      - transitivity ((if Nat.eqb x x then b x else a x) * bigprod ms (fun q => if Nat.eqb q x then b q else a q)); [reflexivity|].
        rewrite Nat.eqb_refl. f_equal. apply bigprod_ext. intros q Hq. destruct (Nat.eqb_spec q x); auto. subst. contradiction.
      - rewrite <- (bigsum_mul_l RL). apply bigsum_ext. intros m0 Hm0.
        transitivity ((if Nat.eqb x m0 then b x else a x) * bigprod ms (fun q => if Nat.eqb q m0 then b q else a q)); [reflexivity|].
        destruct (Nat.eqb_spec x m0); [subst; contradiction|]. reflexivity. }
    rewrite Es. change (bigprod (x :: ms) a) with (a x * bigprod ms a).
    change (bigprod (x :: ms) (fun q => a q + b q)) with ((a x + b x) * bigprod ms (fun q => a q + b q)). rewrite IH.
    set (D := bigsum ms (fun m' => bigprod ms (fun q => if Nat.eqb q m' then b q else a q))).
    destruct (Nat.eq_dec x m) as [->|Hxm].
    + assert (ED : D = n0).
      { unfold D. apply (bigsum_zero RL). intros m' Hm'. apply (prod_zero_at _ ms m' Hm'). rewrite Nat.eqb_refl. apply Hb; [right; auto|]. intros ->. contradiction. }
      rewrite ED. ring.
    + rewrite (Hb x (or_introl eq_refl) Hxm). ring.
Qed.

Context (V : tensor N) (ranks : list nat).
Let o := order V.
Hypothesis Ho : (2 <= o <= 18)%nat.
Lemma pp_at W0 dW n idx : inb (ttmc_lens V W0 (others n o)) idx -> tucker_ok V W0 ranks -> dW_ok V ranks dW ->
  at_ (pp_ttmc V W0 dW n) idx = ttmc_at V W0 (others n o) idx + bigsum (others n o) (fun m => ttmc_at V (setf W0 m (fac dW m)) (others n o) idx).
Proof.
  intros Hi HW HD. unfold pp_ttmc. fold o. rewrite at_tabulate by auto. unfold ttmc at 1. rewrite at_tabulate by auto. f_equal.
  apply bigsum_ext. intros m Hm. apply others_in in Hm as [Hm _]. unfold ttmc. rewrite at_tabulate; auto.
  replace (ttmc_lens V (setf W0 m (fac dW m)) (others n o)) with (ttmc_lens V W0 (others n o)); auto.
  apply map_ext_in. intros q Hq. apply in_seq in Hq. fold o in Hq. destruct HW as (_ & LW & _ & HM). fold o in LW. rewrite fac_setf by lia.
  destruct (Nat.eqb_spec q m); [subst|auto]. rewrite (mat_ncol _ _ _ (HM m Hm)). destruct HD as [_ HD]. rewrite (mat_ncol _ _ _ (HD m Hm)). auto.
Qed.
(** the sum over modes of the first-order terms, as one sum over the entries of V *)
Lemma ttmc_first_order W0 (D : nat -> tensor N) n idx : length W0 = o ->
  bigsum (others n o) (fun m => ttmc_at V (setf W0 m (D m)) (others n o) idx)
  = bigsum (filter (fun x => forallb (fun m => existsb (Nat.eqb m) (others n o) || Nat.eqb (nth m x 0%nat) (nth m idx 0%nat)) (seq 0 o)) (all_idx (lens V)))
      (fun x => at_ V x * bigsum (others n o) (fun m' => bigprod (others n o) (fun q => if Nat.eqb q m' then el (D q) (nth q x 0%nat) (nth q idx 0%nat)
                                                                                       else el (fac W0 q) (nth q x 0%nat) (nth q idx 0%nat)))).
Proof.
  intros LW. unfold ttmc_at. fold o. rewrite (bigsum_swap RL). apply bigsum_ext. intros x _. rewrite (bigsum_mul_l RL). f_equal.
  apply bigsum_ext. intros m Hm. apply others_in in Hm as [Hm _]. apply bigprod_ext. intros q Hq. rewrite fac_setf by lia.
  destruct (Nat.eqb_spec q m); subst; auto.
Qed.
Lemma inb_ttmc W0 n idx q : tucker_ok V W0 ranks -> inb (ttmc_lens V W0 (others n o)) idx -> (q < o)%nat -> q <> n ->
  (nth q idx 0 < nth q ranks 0)%nat.
Proof.
  intros (_ & LW & LR & HM) Hi Hq Hn. assert (X := inb_nth _ _ q Hi). unfold ttmc_lens in X. rewrite map_length, seq_length in X. fold o in X. specialize (X Hq).
  rewrite (nth_map_lt _ _ _ 0%nat) in X by (rewrite seq_length; auto). rewrite nth_seq in X by auto. cbn [Nat.add] in X.
  replace (existsb (Nat.eqb q) (others n o)) with true in X.
  - rewrite (mat_ncol _ _ _ (HM q Hq)) in X. auto.
  - symmetry. apply existsb_exists. exists q. split; [apply others_in; auto|apply Nat.eqb_refl].
Qed.
Definition tmoved_by (W0 dW : list (tensor N)) (t : N) : list (tensor N) :=
  map (fun m => madd (fac W0 m) (mscal t (fac dW m))) (seq 0 o).
Theorem ttmc_expansion W0 dW n idx : tucker_ok V W0 ranks -> dW_ok V ranks dW -> (n < o)%nat -> inb (ttmc_lens V W0 (others n o)) idx ->
  exists cs, forall t, ttmc_at V (tmoved_by W0 dW t) (others n o) idx
     = ttmc_at V W0 (others n o) idx + t * bigsum (others n o) (fun m => ttmc_at V (setf W0 m (fac dW m)) (others n o) idx) + t * t * peval cs t.
Proof.
  intros HW HD Hn Hi. pose proof HW as (HV & LW & LR & HM). fold o in LW, HM. rewrite (ttmc_first_order W0 (fac dW) n idx LW).
  unfold ttmc_at. fold o. apply sum_expand; auto. intros x Hx. apply filter_In in Hx as [Hx _]. apply all_idx_in in Hx.
  destruct (prod_expand RL (fun m => el (fac W0 m) (nth m x 0%nat) (nth m idx 0%nat)) (fun m => el (fac dW m) (nth m x 0%nat) (nth m idx 0%nat)) (others n o))
    as (cs & Hcs); [apply others_nodup|].
  exists (pscal (at_ V x) cs). intros t. rewrite (peval_scal RL).
  rewrite (bigprod_ext (others n o) _ (fun m => el (fac W0 m) (nth m x 0%nat) (nth m idx 0%nat) + t * el (fac dW m) (nth m x 0%nat) (nth m idx 0%nat))).
  - rewrite Hcs. ring.
  - intros m Hm. apply others_in in Hm as [Hm Hmn]. unfold tmoved_by. rewrite fac_map_seq by auto.
    assert (Hmx : (nth m x 0 < nth m (lens V) 0)%nat) by (apply inb_nth; auto).
    assert (Hmk := inb_ttmc W0 n idx m HW Hi Hm Hmn).
    rewrite (el_madd _ _ (nth m (lens V) 0%nat) (nth m ranks 0%nat)) by auto. destruct HD as [_ HD].
    rewrite (el_mscal _ _ (nth m (lens V) 0%nat) (nth m ranks 0%nat)) by auto. auto.
Qed.
Theorem pp_ttmc_exact_one W0 dW W n m : tucker_ok V W0 ranks -> dW_ok V ranks dW -> length W = o -> (n < o)%nat ->
  (forall q, (q < o)%nat -> q <> n -> fac W q = madd (fac W0 q) (fac dW q)) ->
  (forall q, (q < o)%nat -> q <> n -> q <> m -> fac W q = fac W0 q) ->
  pp_ttmc V W0 dW n = ttmc V W (others n o).
Proof.
  intros HW HD HL Hn Hall Hone. pose proof HW as (HV & LW & LR & HM). fold o in LW, HM.
  assert (El : ttmc_lens V W (others n o) = ttmc_lens V W0 (others n o)).
  { apply map_ext_in. intros q Hq. apply in_seq in Hq. fold o in Hq. destruct (existsb (Nat.eqb q) (others n o)) eqn:E; auto.
    apply existsb_exists in E as (q' & E1 & E2). apply Nat.eqb_eq in E2. subst q'. apply others_in in E1 as [E1 E2].
    rewrite Hall by auto. unfold madd, ncol. reflexivity. }
  apply tensor_ext; [apply tabulate_wf|apply tabulate_wf|cbn [pp_ttmc ttmc tabulate lens]; auto|].
  intros idx Hi. unfold pp_ttmc in Hi. cbn [tabulate lens] in Hi. rewrite pp_at by auto. unfold ttmc. rewrite at_tabulate by (rewrite El; auto).
  rewrite (ttmc_first_order W0 (fac dW) n idx LW). unfold ttmc_at. fold o. rewrite <- (bigsum_add RL). apply bigsum_ext. intros x Hx.
  apply filter_In in Hx as [Hx _]. apply all_idx_in in Hx. transitivity (at_ V x * (bigprod (others n o) (fun m => el (fac W0 m) (nth m x 0%nat) (nth m idx 0%nat)) + bigsum (others n o) (fun m' => bigprod (others n o) (fun q => if Nat.eqb q m' then el (fac dW q) (nth q x 0%nat) (nth q idx 0%nat) else el (fac W0 q) (nth q x 0%nat) (nth q idx 0%nat))))); [ring|]. f_equal.
  assert (Hel : forall q, (q < o)%nat -> q <> n -> el (madd (fac W0 q) (fac dW q)) (nth q x 0%nat) (nth q idx 0%nat) =
     el (fac W0 q) (nth q x 0%nat) (nth q idx 0%nat) + el (fac dW q) (nth q x 0%nat) (nth q idx 0%nat)).
  { intros q Hq Hqn. apply (el_madd _ _ (nth q (lens V) 0%nat) (nth q ranks 0%nat)); auto; [apply inb_nth; auto|]. apply (inb_ttmc W0 n); auto. }
  rewrite <- (prod_one _ _ m); [|apply others_nodup|].
  - apply bigprod_ext. intros q Hq. apply others_in in Hq as [Hq1 Hq2]. rewrite Hall, Hel by auto. auto.
  - intros q Hq Hqm. apply others_in in Hq as [Hq1 Hq2]. apply (sub_cancel RL (el (fac W0 q) (nth q x 0%nat) (nth q idx 0%nat))).
    rewrite <- Hel by auto. rewrite <- Hall, Hone by auto. auto.
Qed.

End P.
Section Q.
Context {N : num}.
(** ** orders for which building the operators is undefined *)
Lemma TBuild_ub fuel (V : tensor N) W mp s : (9 <= length s)%nat -> Build_ttmc_map (S fuel) V W mp s = Err UB.
Proof.
  intros Hl. cbn [Build_ttmc_map].
  destruct (Nat.eqb_spec (length s) 0); [lia|]. destruct (Nat.eqb_spec (length s) 1); [lia|].
  assert (Hf : length (firstn (length s - 1) s) = (length s - 1)%nat) by (rewrite firstn_length; lia).
  destruct (Nat.eq_dec (length s) 9) as [E9|].
  - destruct (strncpy_ok (newbuf 8) 0 (firstn (length s - 1) s)) as (b & E & L & _). { rewrite newbuf_length. lia. }
    rewrite E. cbn [bind]. unfold bset at 1. rewrite L, newbuf_length. natcases; auto; try lia.
  - rewrite strncpy_ub; auto; [rewrite newbuf_length; lia|]. intros Ef. rewrite Ef in Hf. cbn in Hf. lia.
Qed.
Theorem ttmc_operators_big (V : tensor N) W : (11 <= order V)%nat -> build_ttmc_operators V W (lbuf (order V)) = Err UB.
Proof.
  intros Ho. unfold build_ttmc_operators. rewrite for_first by lia. cbn [Nat.add].
  rewrite (for_first 1) by lia. destruct (first_pair_long (order V) Ho) as (s & E & Hs). rewrite E. cbn [bind].
  rewrite Nat.add_1_r. rewrite TBuild_ub by auto. reflexivity.
Qed.
Theorem ttmc_operators_small (V : tensor N) W : order V = 1%nat \/ order V = 2%nat -> build_ttmc_operators V W (lbuf (order V)) = Err UB.
Proof. intros [Ho|Ho]; unfold build_ttmc_operators; rewrite Ho; reflexivity. Qed.

Theorem ttmc_operators_10 (RL : ring_laws N) (V : tensor N) W ranks : tucker_ok V W ranks -> order V = 10%nat ->
  build_ttmc_operators V W (lbuf 10) = Err UB.
Proof.
  intros HW Ho. unfold build_ttmc_operators. rewrite Ho.
  destruct (for_inv (fun k mp => tptable V W mp)
    (fun ii mp => for_ (ii + 1) 10 (fun jj mp => s <- seq_except2 10 (lbuf 10) ii jj ;; Build_ttmc_map (10 + 1) V W mp s) mp) 0 10 sempty)
    as (mp & E & Ht).
  - lia.
  - intros s T E; discriminate.
  - intros i mp Hi Ht. apply (for_inv (fun _ m => tptable V W m)); auto; [lia|]. intros j mp' Hj Ht'. rewrite except2_ok by lia. cbn [bind].
    assert (Ha : PPP.asc (order V) (outside [i; j] (order V))) by apply outside_asc. rewrite Ho in Ha.
    assert (Hl : length (outside [i; j] 10) = 8%nat) by (rewrite outside_length by (apply asc_two; lia); reflexivity).
    destruct (TBuild_ok RL V ltac:(lia) W (tucker_shapes _ _ _ HW) (10 + 1) (outside [i; j] 10) mp') as (mp2 & E2 & Ht2 & _); rewrite ?Hl, ?Ho; auto; try lia.
    eauto.
  - rewrite E. cbn [bind]. rewrite for_first by lia. rewrite except1_ok by lia. cbn [bind].
    change (10 + 1)%nat with 11%nat. rewrite TBuild_ub; auto.
Qed.
End Q.
