(** The two phases of the pairwise-perturbation driver and the driver itself *)
From Coq Require Import List ZArith QArith Lia Bool Arith Permutation Ring.
From Verif Require Import Base Num Tensor Spec Spec2 MCommon MCP PBase PTensor PSum PMttkrp PMat PKhatri PGrad PMatAlg PSolve
  PNormalize PTree PDT PDTSweep PALS PDrivers PPP PPPSweep.
Import ListNotations.
Local Close Scope Q_scope.

Section P.
Context {N : num} (RL : ring_laws N) (LA : lapack N).
Let RT : ring_theory (@n0 N) n1 nadd nmul nsub nopp (@eq N) := RL.
Add Ring NringPD : RT.
Local Open Scope num_scope.
Context (V : tensor N) (R : nat).
Let o := order V.
Hypothesis Hsh : svd_shaped (svd LA).
Let solve := pinv_solve (svd LA) R.

Lemma assign_zero (D : tensor N) r c : lens D = [r; c] -> assign false D sij [mkTerm n0 []] = Ok (zeros [r; c]).
Proof.
  intros HD. replace (zeros [r; c]) with (mk r c (fun _ _ => n0) : tensor N) by reflexivity.
  apply (assign_mat (d3 r c 0)); auto.
  - discriminate.
  - intros t [<-|[]] p [].
  - intros i j Hi Hj. cbv -[nadd nmul nopp nsub n0 n1 bigsum at_ el seq car gram_at]. ring.
Qed.
Lemma assign_copy (D A : tensor N) r c : lens D = [r; c] -> is_mat A r c -> assign false D sij [mkTerm n1 [(A, sij)]] = Ok A.
Proof.
  intros HD HA. rewrite (assign_scal RL _ _ n1 r c) by (auto; apply HA). f_equal. symmetry. apply mat_mk; auto.
  intros. ring.
Qed.
Lemma assign_msub (D A B : tensor N) r c : lens D = [r; c] -> is_mat A r c -> is_mat B r c ->
  assign false D sij [mkTerm n1 [(A, sij)]; mkTerm (- n1) [(B, sij)]] = Ok (msub A B).
Proof.
  intros HD HA HB. rewrite (assign_lin RL _ _ _ _ _ r c) by (auto; try apply HA; apply HB). f_equal. symmetry.
  apply mat_mk; [apply msub_mat'; auto|]. intros i j Hi Hj. rewrite (el_msub _ _ r c) by auto. ring.
Qed.
Lemma list_fac_ext (A B : list (tensor N)) n : length A = n -> length B = n -> (forall m, (m < n)%nat -> fac A m = fac B m) -> A = B.
Proof. intros HA HB H. apply nth_ext with (d:=tnil) (d':=tnil); [congruence|]. rewrite HA. exact H. Qed.
Lemma fac_map_seq (f : nat -> tensor N) n m : (m < n)%nat -> fac (map f (seq 0 n)) m = f m.
Proof. intros H. unfold fac. rewrite (nth_map_lt _ _ _ 0%nat) by (rewrite seq_length; auto). rewrite nth_seq by auto. auto. Qed.
Lemma zmats_mats : mats_ok V (zmats V R) R.
Proof.
  split; [unfold zmats; rewrite map_length, seq_length; auto|]. intros m Hm. unfold zmats. rewrite fac_map_seq by auto.
  split; [reflexivity|apply tabulate_wf].
Qed.
Lemma zmats_zero : zero_mats V (zmats V R) R.
Proof.
  intros m i j Hm Hi Hj. unfold zmats. rewrite fac_map_seq by auto. unfold el, zeros. rewrite at_tabulate by (apply inb2; auto). auto.
Qed.
Lemma zero_dW_ok dW : mats_ok V dW R -> zero_dW o dW = Ok (zmats V R).
Proof.
  intros [HL HD]. fold o in HL. unfold zero_dW.
  destruct (for_inv (fun j (D : list (tensor N)) => length D = o /\ forall m, (m < o)%nat ->
      fac D m = if (m <? j)%nat then zeros [nth m (lens V) 0%nat; R] else fac dW m)
     (fun j dW => D <- lget dW j ;; D <- assign false D sij [mkTerm n0 []] ;; lput dW j D) 0 o dW) as (D & E & HDl & HDm).
  - lia.
  - split; auto.
  - intros j D Hj (HDl & HDm). rewrite (lget_ok D j tnil) by lia. cbn [bind]. fold (fac D j). rewrite HDm by lia.
    natcases. rewrite (assign_zero _ (nth j (lens V) 0%nat) R) by (apply HD; fold o; lia). cbn [bind].
    rewrite lput_ok by lia. eexists; split; [reflexivity|]. split; [rewrite lset_length; auto|].
    intros m Hm. change (fac (lset D j (zeros [nth j (lens V) 0%nat; R])) m) with (fac (setf D j (zeros [nth j (lens V) 0%nat; R])) m).
    rewrite fac_setf by lia. destruct (Nat.eqb_spec m j); [subst|rewrite HDm by auto]; natcases; auto.
  - rewrite E. f_equal. apply (list_fac_ext _ _ o); auto. { unfold zmats. rewrite map_length, seq_length. auto. }
    intros m Hm. rewrite HDm by auto. unfold zmats. rewrite fac_map_seq by auto. natcases. auto.
Qed.
Lemma mk_dW_ok W : factors_ok V W R -> mk_dW W o = Ok (zmats V R).
Proof.
  intros HW. unfold mk_dW.
  destruct (for_inv (fun j (D : list (tensor N)) => D = map (fun m => zeros [nth m (lens V) 0%nat; R]) (seq 0 j))
     (fun j acc => Wj <- lget W j ;; D <- assign false (zeros [nrow Wj; ncol Wj]) sij [mkTerm n0 []] ;; Ok (acc ++ [D])) 0 o []) as (D & E & HD).
  - lia.
  - reflexivity.
  - intros j D Hj ->. rewrite (W_lget LA V R W j) by (auto; fold o; lia). cbn [bind].
    destruct (W_dims V R W j HW ltac:(fold o; lia)) as [Er Ec]. rewrite Er, Ec.
    rewrite (assign_zero _ (nth j (lens V) 0%nat) R) by reflexivity. cbn [bind]. eexists; split; [reflexivity|].
    rewrite seq_S, map_app. reflexivity.
  - rewrite E, HD. reflexivity.
Qed.
Definition count (p : nat -> bool) (n : nat) : nat := length (filter p (seq 0 n)).
Lemma count_S p n : count p (S n) = (count p n + (if p n then 1 else 0))%nat.
Proof. unfold count. rewrite seq_S, filter_app, app_length. cbn. destruct (p n); cbn; lia. Qed.
Lemma count_full p n : count p n = n -> forall m, (m < n)%nat -> p m = true.
Proof.
  induction n; intros E m Hm; [lia|]. rewrite count_S in E. assert (H : (count p n <= n)%nat).
  { unfold count. rewrite <- (seq_length n 0) at 2. clear. induction (seq 0 n); cbn; [lia|]. destruct (p a); cbn; lia. }
  destruct (p n) eqn:Ep; [|lia]. destruct (Nat.eq_dec m n); [subst; auto|]. apply IHn; lia.
Qed.
Lemma count_zero p n : (forall m, (m < n)%nat -> p m = false) -> count p n = 0%nat.
Proof. induction n; intros H; [reflexivity|]. rewrite count_S, IHn, H by (auto; intros; apply H; lia). auto. Qed.
Definition changed (W Wp : list (tensor N)) : list (tensor N) := map (fun m => msub (fac W m) (fac Wp m)) (seq 0 o).
Lemma changed_mats W Wp : mats_ok V W R -> mats_ok V (changed W Wp) R.
Proof.
  intros [HL H]. split; [unfold changed; rewrite map_length, seq_length; auto|]. intros m Hm. unfold changed. rewrite fac_map_seq by auto.
  apply msub_mat'. auto.
Qed.
Lemma factors_mats W : factors_ok V W R -> mats_ok V W R.
Proof. intros (_ & H1 & H2). split; auto. Qed.
Lemma dw_update_ok tol_init W dW Wp : factors_ok V W R -> mats_ok V dW R -> mats_ok V Wp R ->
  dw_update o tol_init W dW Wp
  = Ok (changed W Wp, W, count (fun m => nltb (rel_change W (changed W Wp) m) tol_init) o).
Proof.
  intros HW [HDl HDm] [HPl HPm]. fold o in HDl, HPl. assert (HWl : length W = o) by apply HW. unfold dw_update.
  destruct (for_inv (fun j (st : (list (tensor N) * list (tensor N) * nat)%type) =>
      let '(D, P, c) := st in length D = o /\ length P = o /\ c = count (fun m => nltb (rel_change W (changed W Wp) m) tol_init) j /\
      forall m, (m < o)%nat -> fac D m = (if (m <? j)%nat then fac (changed W Wp) m else fac dW m) /\
                               fac P m = if (m <? j)%nat then fac W m else fac Wp m)
     (fun i st =>
      let '(dW, W_prev, cnt) := st in
      Wi <- lget W i ;; Pi <- lget W_prev i ;; Di <- lget dW i ;;
      Di <- assign false Di sij [mkTerm n1 [(Wi, sij)]; mkTerm (- n1) [(Pi, sij)]] ;;
      Pi <- assign false Pi sij [mkTerm n1 [(Wi, sij)]] ;;
      dW <- lput dW i Di ;;
      W_prev <- lput W_prev i Pi ;;
      let cnt := if nltb (nabs (norm2 Di / norm2 Wi)) tol_init then S cnt else cnt in
      Ok (dW, W_prev, cnt)) 0 o (dW, Wp, 0%nat)) as ([[D P] c] & E & H1 & H2 & H3 & H4).
  - lia.
  - repeat split; auto.
  - intros j [[D P] c] Hj (H1 & H2 & H3 & H4).
    assert (Hm := HW). destruct Hm as (_ & _ & HWm).
    rewrite (lget_ok W j tnil), (lget_ok P j tnil), (lget_ok D j tnil) by lia. cbn [bind]. fold (fac W j) (fac P j) (fac D j).
    destruct (H4 j ltac:(lia)) as [-> ->]. natcases.
    assert (HWj : is_mat (fac W j) (nth j (lens V) 0%nat) R) by (apply HWm; fold o; lia).
    assert (HPj : is_mat (fac Wp j) (nth j (lens V) 0%nat) R) by (apply HPm; fold o; lia).
    rewrite (assign_msub _ _ _ (nth j (lens V) 0%nat) R); auto; [|apply HDm; fold o; lia]. cbn [bind].
    rewrite (assign_copy _ _ (nth j (lens V) 0%nat) R); auto; [|apply HPj]. cbn [bind].
    rewrite !lput_ok by lia. cbn [bind]. eexists; split; [reflexivity|].
    assert (EC : fac (changed W Wp) j = msub (fac W j) (fac Wp j)) by (unfold changed; rewrite fac_map_seq by lia; auto).
    cbv beta iota zeta. rewrite !lset_length. split; auto. split; auto. split.
    + rewrite count_S, H3. cbv beta. replace (rel_change W (changed W Wp) j) with (nabs (norm2 (msub (fac W j) (fac Wp j)) / norm2 (fac W j)))
        by (unfold rel_change; rewrite EC; auto). destruct (nltb (nabs _) tol_init); lia.
    + intros m Hmo. fold (setf D j (msub (fac W j) (fac Wp j))) (setf P j (fac W j)). rewrite !fac_setf by lia.
      destruct (Nat.eqb_spec m j) as [->|]; natcases; auto; try (exfalso; lia); try (destruct (H4 m Hmo) as [-> ->]; natcases; auto).
  - etransitivity; [exact E|]. rewrite H3. f_equal. f_equal. f_equal.
    + apply (list_fac_ext _ _ o); auto. { unfold changed. rewrite map_length, seq_length. auto. }
      intros m Hm. destruct (H4 m Hm) as [-> _]. natcases. auto.
    + apply (list_fac_ext _ _ o); auto. intros m Hm. destruct (H4 m Hm) as [_ ->]. natcases. auto.
Qed.
Lemma dw_count_ok tol_init W dW : factors_ok V W R -> mats_ok V dW R ->
  dw_count o tol_init W dW = Ok (count (fun m => nltb tol_init (rel_change W dW m)) o).
Proof.
  intros HW HD. unfold dw_count.
  destruct (for_inv (fun j c => c = count (fun m => nltb tol_init (rel_change W dW m)) j)
     (fun i cnt => Wi <- lget W i ;; Di <- lget dW i ;;
      Ok (if nltb tol_init (nabs (norm2 Di / norm2 Wi)) then S cnt else cnt)) 0 o 0%nat) as (c & E & Hc).
  - lia.
  - reflexivity.
  - intros j c Hj ->. rewrite (W_lget LA V R W j), (F_lget LA V R dW j) by (auto; fold o; lia). cbn [bind].
    eexists; split; [reflexivity|]. rewrite count_S. cbv beta. fold (rel_change W dW j). destruct (nltb tol_init (rel_change W dW j)); lia.
  - rewrite E, Hc. reflexivity.
Qed.

Lemma rescaled_factors W : factors_ok V W R -> factors_ok V (rescaled W) R.
Proof.
  intros (H1 & H2 & H3). split; auto. unfold rescaled. split; [rewrite map_length; auto|].
  intros m Hm. unfold fac. rewrite (nth_map_lt _ _ _ tnil) by lia. apply mscal_mat, H3; auto.
Qed.
Lemma exact_sweep_factors lambda W : factors_ok V W R -> factors_ok V (exact_sweep solve lambda V R W) R.
Proof. intros. apply rescaled_factors, (sweep_factors RL LA V R Hsh); auto. Qed.
Lemma als_grads_mats lambda F W : factors_ok V W R -> mats_ok V (als_grads solve lambda V F R W) R.
Proof.
  intros HW. split; [unfold als_grads; rewrite map_length, seq_length; auto|]. intros m Hm. unfold als_grads. rewrite fac_map_seq by auto.
  apply msub_mat', (mmul_mat _ _ _ R R); [|apply lhs_mat]. apply (upto_factors RL LA V R Hsh lambda F W m HW); [lia|auto].
Qed.
Lemma pp_sweep_ok_mats lambda ratio W0 W dW : factors_ok V W0 R -> factors_ok V W R -> mats_ok V dW R ->
  factors_ok V (fst (pp_sweep solve lambda ratio V W0 R (W, dW))) R /\ mats_ok V (snd (pp_sweep solve lambda ratio V W0 R (W, dW))) R.
Proof.
  intros HW0 HW HD. destruct (pp_upto_ok RL V R LA Hsh lambda ratio W0 W dW (order V)) as [H1 H2]; auto.
  unfold pp_sweep. destruct (pp_upto _ _ _ _ _ _ _ _). cbn in *. split; auto. apply rescaled_factors; auto.
Qed.
Lemma pp_grads_mats lambda ratio W0 W dW : factors_ok V W0 R -> factors_ok V W R -> mats_ok V dW R ->
  mats_ok V (pp_grads solve lambda ratio V W0 R (W, dW)) R.
Proof.
  intros HW0 HW HD. split; [unfold pp_grads; rewrite map_length, seq_length; auto|]. intros m Hm. unfold pp_grads. rewrite fac_map_seq by auto.
  destruct (pp_upto_ok RL V R LA Hsh lambda ratio W0 W dW m) as [H1 H2]; auto; [lia|].
  destruct (pp_upto (pinv_solve (svd LA) R) lambda ratio V W0 R m (W, dW)) as [W' dW'] eqn:EU. fold solve in EU. rewrite EU.
  apply msub_mat', (mmul_mat _ _ _ R R); [|apply lhs_mat]. cbn in H1. apply H1. auto.
Qed.

(** ** clocks: J c s holds when the next reading is number c and st_time is s; b is the answer of the
    time-limit test in such states *)
Context (clk : nat -> N) (rank0 : bool) (limit : N).
Section Clock.
Context (J : nat -> N -> Prop) (b bench : bool).
Hypothesis J_measure : forall c s, J c s -> J (S (S (S c))) (s + (clk (S c) - clk c)).
Hypothesis J_test : forall c s, J c s -> J (S c) s /\ nltb limit (clk c - s) = b.
Hypothesis J_reset : bench = true -> forall c s, J c s -> J (S c) (clk c).
Definition Jx (x : io (N:=N)) : Prop := J (ck x) (st_time x).

Lemma measure_J W G x : (2 <= o <= 19)%nat -> factors_ok V W R -> length G = o -> Jx x ->
  exists x' dt, measure clk V W G (lbuf o) x = Ok (grad_norm G, resid_norm V W R, dt, x') /\ Jx x'.
Proof.
  intros Ho HW HG HJ. unfold measure, check_begin, wtime. fold o. rewrite (sumnorm_ok RL clk) by auto. cbn [bind].
  assert (Ed := diffnorm_ok RL clk V W R Ho HW). fold o in Ed. rewrite Ed. cbn [bind]. unfold check_end, wtime, set_st. cbn [ck st_time rows].
  eexists _, _. split; [reflexivity|]. unfold Jx. cbn [ck st_time]. apply J_measure. exact HJ.
Qed.
Lemma emit_J x r : Jx x -> Jx (emit rank0 x r).
Proof. unfold emit. destruct rank0; auto. Qed.
Lemma stop_test_J pn tol x : Jx x -> exists x', stop_test clk pn tol limit x = (nltb pn tol || b, x') /\ Jx x'.
Proof.
  intros HJ. unfold stop_test, wtime. destruct (nltb pn tol); [eauto|]. cbn. destruct (J_test _ _ HJ) as [H1 H2]. rewrite H2. eauto.
Qed.

Definition pok (p : pp_state (N:=N)) : Prop := factors_ok V (pW p) R /\ mats_ok V (pG p) R /\ mats_ok V (pdW p) R /\ Jx (pio p).

(** ** the exact phase *)
Section DT.
Context (tol tol_init lambda : N) (maxiter resprint : Z) (fuel : nat).
Hypothesis Ho : (o = 4 \/ 6 <= o <= 19)%nat.
Hypothesis Hf : (o < fuel)%nat.
Hypothesis Hlam : neqb lambda n0 = true -> lambda = n0.
Hypothesis Hres : resprint <> 0%Z.
Let dstep := exact_sweep solve lambda V R.
Definition small (W dW : list (tensor N)) : Prop := forall m, (m < o)%nat -> nltb (rel_change W dW m) tol_init = true.
Definition checked (iter : Z) : bool := (Z.rem iter resprint =? 0)%Z || (iter =? maxiter)%Z.

Lemma DT_sub_check_J iter s : pok (bst s) -> bseq s = lbuf o ->
  exists x', DT_sub_check clk rank0 V tol limit iter s
   = Ok (nltb (grad_norm (pG (bst s))) tol || b, with_bst s (mkPP (pW (bst s)) (pG (bst s)) (pdW (bst s)) (grad_norm (pG (bst s))) x')) /\ Jx x'.
Proof.
  intros (HW & HG & HD & HJ) Hsq. unfold DT_sub_check. rewrite Hsq.
  destruct (measure_J (pW (bst s)) (pG (bst s)) (pio (bst s))) as (x' & dt & Em & HJ'); auto; [lia|apply HG|].
  rewrite Em. cbn [bind].
  match goal with |- context [stop_test _ _ _ _ ?y] => destruct (stop_test_J (grad_norm (pG (bst s))) tol y) as (x2 & Es & HJ2); [apply emit_J; auto|] end.
  rewrite Es. eauto.
Qed.
(** state after k sweeps of the phase *)
Definition dt_reach (W : list (tensor N)) (k : nat) (s : sub_state (N:=N)) : Prop :=
  pok (bst s) /\ lens (bS s) = [R; R] /\ mats_ok V (bprev s) R /\ bseq s = lbuf o /\
  pW (bst s) = Nat.iter k dstep W.

Theorem DT_sub_run iter p : pok p -> (iter <= maxiter)%Z ->
  exists iter' p' k, alsCP_DT_sub LA clk rank0 fuel V tol tol_init limit lambda maxiter resprint iter p = Ok (iter', p') /\
    pok p' /\ pW p' = Nat.iter k dstep (pW p) /\
    ((iter' = iter + Z.of_nat k /\ iter' = maxiter + 1)%Z \/
     ((iter' = iter + Z.of_nat k /\ iter' <= maxiter)%Z /\ ppn p' = grad_norm (pG p') /\ nltb (ppn p') tol || b = true) \/
     ((iter' + 1 = iter + Z.of_nat k /\ iter <= iter' <= maxiter)%Z /\ small (pW p') (pdW p'))).
Proof.
  intros Hp Hit. unfold alsCP_DT_sub. fold o. assert (Hp' := Hp). destruct Hp' as (HW & HG & HD & HJ).
  rewrite (W_lget LA V R (pW p) 0) by (auto; fold o; lia). cbn [bind].
  destruct (W_dims V R (pW p) 0 HW ltac:(fold o; lia)) as [_ Hc]. rewrite Hc.
  rewrite (mk_regul_ok RL). cbn [bind].
  destruct (for_inv (fun j (D : list (tensor N)) => D = map (fun m => zeros [nth m (lens V) 0%nat; R]) (seq 0 j))
     (fun i acc => Wi <- lget (pW p) i ;; Ok (acc ++ [zeros [nrow Wi; ncol Wi]])) 0 o []) as (Wp & EWp & HWp).
  { lia. } { reflexivity. }
  { intros j D Hj ->. rewrite (W_lget LA V R (pW p) j) by (auto; fold o; lia). cbn [bind].
    destruct (W_dims V R (pW p) j HW ltac:(fold o; lia)) as [Er Ec]. rewrite Er, Ec. eexists; split; [reflexivity|].
    rewrite seq_S, map_app. reflexivity. }
  rewrite EWp. cbn [bind]. rewrite mk_seqV_ok. cbn [bind].
  destruct (tree_build o fuel) as (parent & sibling & Et & Htree); [lia|lia|]. rewrite Et. cbn [bind].
  set (body := DT_sub_iter _ _ _ _ _ _ _ _ _ _ _ _ _ _).
  destruct (for_iter_run (dt_reach (pW p))
     (fun f k s => match f with
        | Break => dt_reach (pW p) k s /\ ppn (bst s) = grad_norm (pG (bst s)) /\ nltb (ppn (bst s)) tol || b = true
        | _ => dt_reach (pW p) (S k) s /\ small (pW (bst s)) (pdW (bst s)) end)
     body (rounds iter maxiter) 0%nat iter (mkSub p (zeros [R; R]) Wp (lbuf o) sempty n0)) as (f & k & s & E & Hs).
  - split; [auto|]. split; [reflexivity|]. split; [|split; reflexivity]. cbn [bprev]. subst Wp. apply zmats_mats.
  - intros k s Hk (Hpk & HS & HPk & Hsq & EW). subst body. unfold DT_sub_iter, zmod.
    destruct (Z.eqb_spec resprint 0); [contradiction|]. cbn [bind]. set (it := (iter + Z.of_nat (k - 0))%Z).
    assert (Hc' : exists stop s1, (if (Z.rem it resprint =? 0)%Z || (it =? maxiter)%Z
        then DT_sub_check clk rank0 V tol limit it s else Ok (false, s)) = Ok (stop, s1) /\
        dt_reach (pW p) k s1 /\ (stop = true -> ppn (bst s1) = grad_norm (pG (bst s1)) /\ nltb (ppn (bst s1)) tol || b = true)).
    { destruct (_ || _).
      - destruct (DT_sub_check_J it s Hpk Hsq) as (x' & Ec & HJ'). rewrite Ec. eexists _, _. split; [reflexivity|].
        split; [|cbn; auto]. destruct Hpk as (P1 & P2 & P3 & P4). exact (conj (conj P1 (conj P2 (conj P3 HJ'))) (conj HS (conj HPk (conj Hsq EW)))).
      - exists false, s. split; auto. split; [|discriminate]. exact (conj Hpk (conj HS (conj HPk (conj Hsq EW)))). }
    destruct Hc' as (stop & s1 & -> & H1 & Hstop). cbn [bind]. destruct stop.
    + exists Break, s1. split; auto.
    + destruct H1 as ((P1 & P2 & P3 & P4) & HS1 & HP1 & Hsq1 & EW1). rewrite Hsq1.
      destruct (DT_sub_sweep_ok RL LA V R Hsh parent sibling fuel Htree ltac:(fold o; lia) ltac:(fold o; lia) Hf (zmats V R)
         (pG (bst s1)) (pW (bst s1)) (bS s1) lambda) as (Sm' & Es & HS'); auto.
      { intros; apply zmats_zero; auto. }
      fold o in Es. rewrite Es. cbn [bind]. change (rescaled (als_sweep (pinv_solve (svd LA) R) lambda V (zmats V R) R (pW (bst s1)))) with (dstep (pW (bst s1))).
      fold o.
      assert (HWn : factors_ok V (dstep (pW (bst s1))) R) by (apply exact_sweep_factors; auto).
      rewrite dw_update_ok by auto. cbn [bind].
      assert (Hreach : dt_reach (pW p) (S k) (mkSub (mkPP (dstep (pW (bst s1))) (sweep_grads LA V R lambda (zmats V R) (pW (bst s1)))
                 (changed (dstep (pW (bst s1))) (bprev s1)) (ppn (bst s1)) (pio (bst s1))) Sm' (dstep (pW (bst s1))) (lbuf o) (bmp s1) (bdf s1))).
      { split; [|cbn; split; [auto|split; [apply factors_mats; auto|split; [auto|rewrite EW1; auto]]]].
        split; [auto|]. cbn [pG pdW pio pW bst]. split; [apply als_grads_mats; auto|]. split; auto. apply changed_mats, factors_mats; auto. }
      destruct (Nat.eqb_spec (count (fun m => nltb (rel_change (dstep (pW (bst s1))) (changed (dstep (pW (bst s1))) (bprev s1)) m) tol_init) o) o) as [Ec|].
      * eexists Return, _. split; [reflexivity|]. split; auto. cbn [bst pW pdW]. intros m Hm. apply (count_full _ _ Ec m Hm).
      * eexists Go, _. split; [reflexivity|]. auto.
  - rewrite Nat.sub_0_r in E. rewrite E. cbn [bind]. unfold rounds in Hs. destruct f.
    + destruct Hs as [-> (H1 & H2 & H3 & H4 & H5)]. eexists _, _, _. split; [reflexivity|]. split; auto. split; [exact H5|]. left. lia.
    + destruct Hs as [Hk ((H1 & H2 & H3 & H4 & H5) & H6 & H7)]. eexists _, _, _. split; [reflexivity|]. split; auto. split; [exact H5|].
      right. left. split; [lia|auto].
    + destruct Hs as [Hk ((H1 & H2 & H3 & H4 & H5) & H6)]. eexists _, _, _. split; [reflexivity|]. split; auto. split; [exact H5|].
      right. right. split; [lia|auto].
Qed.
(** a phase that starts on a checked iteration with a firing test does nothing *)
Theorem DT_sub_stuck iter p : b = true -> pok p -> (iter <= maxiter)%Z -> checked iter = true ->
  exists x', alsCP_DT_sub LA clk rank0 fuel V tol tol_init limit lambda maxiter resprint iter p
    = Ok (iter, mkPP (pW p) (pG p) (pdW p) (grad_norm (pG p)) x') /\ Jx x'.
Proof.
  intros Hb Hp Hit Hchk. unfold alsCP_DT_sub. fold o. assert (Hp' := Hp). destruct Hp' as (HW & HG & HD & HJ).
  rewrite (W_lget LA V R (pW p) 0) by (auto; fold o; lia). cbn [bind].
  destruct (W_dims V R (pW p) 0 HW ltac:(fold o; lia)) as [_ Hc]. rewrite Hc.
  rewrite (mk_regul_ok RL). cbn [bind].
  destruct (for_inv (fun j (D : list (tensor N)) => True)
     (fun i acc => Wi <- lget (pW p) i ;; Ok (acc ++ [zeros [nrow Wi; ncol Wi]])) 0 o []) as (Wp & EWp & HWp).
  { lia. } { auto. }
  { intros j D Hj _. rewrite (W_lget LA V R (pW p) j) by (auto; fold o; lia). cbn [bind]. eauto. }
  rewrite EWp. cbn [bind]. rewrite mk_seqV_ok. cbn [bind].
  destruct (tree_build o fuel) as (parent & sibling & Et & Htree); [lia|lia|]. rewrite Et. cbn [bind].
  unfold rounds. replace (Z.to_nat (maxiter + 1 - iter)) with (S (Z.to_nat (maxiter - iter))) by lia. cbn [for_iter].
  unfold DT_sub_iter at 1, zmod. destruct (Z.eqb_spec resprint 0); [contradiction|]. cbn [bind].
  unfold checked in Hchk. rewrite Hchk.
  destruct (DT_sub_check_J iter (mkSub p (zeros [R; R]) Wp (lbuf o) sempty n0)) as (x' & Ec & HJ'); auto.
  rewrite Ec. cbn [bind bst]. rewrite Hb, orb_true_r. cbn [bind]. eexists; split; [reflexivity|]. auto.
Qed.
End DT.

(** ** the pairwise-perturbation phase *)
Section PPphase.
Context (tol tol_init lambda ratio : N) (maxiter resprint : Z) (same : bool).
Hypothesis Ho : (3 <= o <= 9)%nat.
Hypothesis Hlam : neqb lambda n0 = true -> lambda = n0.
Hypothesis Hrat : neqb ratio n1 = true -> ratio = n1.
Hypothesis Hres : resprint <> 0%Z.
Let pps W0 := pp_sweep solve lambda ratio V W0 R.
(** the number of modes that moved by more than tol_init (not counted in bench mode) *)
Definition moved (p : pp_state (N:=N)) : nat :=
  if bench then 0%nat else count (fun m => nltb tol_init (rel_change (pW p) (pdW p) m)) o.
(** q is k pairwise-perturbation sweeps after the checkpoint p *)
Definition pp_at (p : pp_state (N:=N)) (k : nat) (q : pp_state (N:=N)) : Prop :=
  pok q /\ (pW q, pdW q) = Nat.iter k (pps (pW p)) (pW p, zmats V R) /\
  pG q = match k with O => pG p | S k' => pp_grads solve lambda ratio V (pW p) R (Nat.iter k' (pps (pW p)) (pW p, zmats V R)) end /\
  (k <> 0%nat -> nltb (grad_norm (pG p)) tol || b = false).
Definition pp_reach (p : pp_state (N:=N)) (k : nat) (s : sub_state (N:=N)) : Prop :=
  pok (bst s) /\ lens (bS s) = [R; R] /\ bseq s = lbuf o /\ (k = 0%nat -> bst s = p) /\
  (k <> 0%nat -> moved p = 0%nat /\ pp_at p k (bst s) /\ bprev s = pW p /\ pptab V R (bmp s) (pW p)).

Lemma PP_check_J iter s : pok (bst s) -> bseq s = lbuf o ->
  exists x' df, PP_check clk rank0 V tol limit bench maxiter iter s
   = Ok (nltb (grad_norm (pG (bst s))) tol || b,
         mkSub (mkPP (pW (bst s)) (pG (bst s)) (pdW (bst s)) (grad_norm (pG (bst s))) x') (bS s) (bprev s) (bseq s) (bmp s) df) /\ Jx x'.
Proof.
  intros (HW & HG & HD & HJ) Hsq. unfold PP_check. rewrite Hsq.
  destruct (measure_J (pW (bst s)) (pG (bst s)) (pio (bst s))) as (x' & dt & Em & HJ'); auto; [lia|apply HG|].
  rewrite Em. cbn [bind].
  assert (Hx : exists x1 df, (if bench then
      if rank0 then
        if negb (Z.eqb iter maxiter) then let '(t, x) := wtime clk x' in (set_st x t, dt)
        else (emit rank0 x' (RowPP (bdf s + dt) dt), bdf s + dt)
      else (x', bdf s)
    else (emit rank0 x' (Row (nth 0 (lens V) 0%nat) iter (grad_norm (pG (bst s))) tol 1 (resid_norm V (pW (bst s)) R) dt), bdf s)) = (x1, df) /\ Jx x1).
  { destruct bench eqn:Eb; [destruct rank0 eqn:Er; [destruct (negb (iter =? maxiter)%Z)|]|].
    - eexists _, _; split; [reflexivity|]. unfold Jx, set_st, wtime. cbn. apply (J_reset eq_refl _ _ HJ').
    - eexists _, _; split; [reflexivity|]. rewrite <- Er. apply emit_J; auto.
    - eexists _, _; split; [reflexivity|]. auto.
    - eexists _, _; split; [reflexivity|]. apply emit_J; auto. }
  destruct Hx as (x1 & df & -> & HJ1).
  destruct (stop_test_J (grad_norm (pG (bst s))) tol x1 HJ1) as (x2 & Es & HJ2). rewrite Es. eauto.
Qed.
Lemma moved_ok p : pok p -> (if bench then Ok 0%nat else dw_count o tol_init (pW p) (pdW p)) = Ok (moved p).
Proof. intros (HW & HG & HD & HJ). unfold moved. destruct bench; auto. apply dw_count_ok; auto. Qed.

Definition pp_flow p (f : flow) (k : nat) (s : sub_state (N:=N)) : Prop :=
  match f with
  | Return => (k = 0%nat /\ (0 < moved p)%nat /\ bst s = p) \/
              ((0 < k)%nat /\ Nat.modulo k 15 = 0%nat /\ moved p = 0%nat /\ pp_at p k (bst s)) \/
              ((0 < k)%nat /\ moved p = 0%nat /\ (0 < moved (bst s))%nat /\ pp_at p k (bst s))
  | _ => moved p = 0%nat /\ pp_at p k (bst s) /\ ppn (bst s) = grad_norm (pG (bst s)) /\ nltb (ppn (bst s)) tol || b = true
  end.
Lemma PP_iter_ok p regul iter k s : regul = mscal lambda (mid R) -> pok p -> pp_reach p k s ->
  exists f s', PP_sub_iter LA clk rank0 same V tol tol_init limit lambda ratio regul (lbuf o) maxiter resprint bench iter (iter + Z.of_nat k)%Z s
     = Ok (f, s') /\ match f with Go => pp_reach p (S k) s' | _ => pp_flow p f k s' end.
Proof.
  intros -> Hp (Hs & HS & Hsq & H0 & Hk). unfold PP_sub_iter. fold o. rewrite (moved_ok (bst s) Hs). cbn [bind].
  replace (iter + Z.of_nat k - iter)%Z with (Z.of_nat k) by lia.
  assert (Hrem : (Z.rem (Z.of_nat k) 15 =? 0)%Z = (Nat.modulo k 15 =? 0)%nat).
  { rewrite Z.rem_mod_nonneg by lia. change 15%Z with (Z.of_nat 15). rewrite <- Nat2Z.inj_mod.
    destruct (Nat.eqb_spec (k mod 15) 0) as [->|]; [reflexivity|]. apply Z.eqb_neq. lia. }
  rewrite Hrem.
  assert (Hit : (iter + Z.of_nat k =? iter)%Z = (k =? 0)%nat).
  { destruct (Nat.eqb_spec k 0); [subst; apply Z.eqb_eq; lia|apply Z.eqb_neq; lia]. }
  rewrite Hit.
  destruct (((k mod 15 =? 0)%nat || (0 <? moved (bst s))%nat) && ((0 <? moved (bst s))%nat || negb (k =? 0)%nat)) eqn:Ei.
  - exists Return, s. split; auto. unfold pp_flow. apply andb_true_iff in Ei as [E1 E2].
    destruct (Nat.eq_dec k 0) as [->|Hk0].
    + left. rewrite H0 in * by auto. cbn [Nat.eqb negb] in E2. rewrite orb_false_r in E2. apply Nat.ltb_lt in E2. auto.
    + destruct (Hk Hk0) as (M0 & Hat & _). right. apply orb_true_iff in E1 as [E1|E1].
      * left. apply Nat.eqb_eq in E1. split; [lia|]. split; [auto|]. split; [auto|exact Hat].
      * right. apply Nat.ltb_lt in E1. split; [lia|auto].
  - (* the sweep *)
    assert (Hs1 : exists s1, (if (k mod 15 =? 0)%nat || (0 <? moved (bst s))%nat then
            let p := bst s in
            dW <- zero_dW o (pdW p) ;;
            mp <- build_operators same V (pW p) (lbuf o) ;;
            Ok (mkSub (mkPP (pW p) (pG p) dW (ppn p) (pio p)) (bS s) (pW p) (bseq s) mp (bdf s))
          else Ok s) = Ok s1 /\ moved p = 0%nat /\ pp_at p k (bst s1) /\ bprev s1 = pW p /\ pptab V R (bmp s1) (pW p) /\ lens (bS s1) = [R; R] /\ bseq s1 = lbuf o).
    { destruct (Nat.eq_dec k 0) as [->|Hk0].
      - rewrite H0 in * by auto. cbn [Nat.eqb negb orb andb Nat.modulo Nat.divmod Nat.sub snd] in *. rewrite orb_false_r in Ei.
        apply Nat.ltb_ge in Ei. assert (M0 : moved p = 0%nat) by lia.
        destruct Hp as (P1 & P2 & P3 & P4).
        rewrite zero_dW_ok by auto. cbn [bind].
        destruct (build_operators_tab RL V R LA same (pW p) P1 Ho) as (mp & Em & Ht & _). fold o in Em. rewrite Em. cbn [bind].
        eexists; split; [reflexivity|]. split; auto. cbn [bst bprev bmp bS bseq]. split; [|auto].
        split; [|split; [reflexivity|split; [reflexivity|intros []; auto]]]. exact (conj P1 (conj P2 (conj zmats_mats P4))).
      - destruct (Hk Hk0) as (M0 & Hat & H3 & H4). exists s.
        assert ((k =? 0)%nat = false) as Ek by (apply Nat.eqb_neq; auto). rewrite Ek in Ei. cbn [negb] in Ei.
        rewrite orb_true_r, andb_true_r in Ei. rewrite Ei. auto 10. }
    destruct Hs1 as (s1 & Es1 & M0 & Hat & Hprev & Htab & HS1 & Hsq1). cbv zeta in Es1 |- *.  rewrite Es1. clear Es1. cbn [bind]. unfold zmod.
    destruct (Z.eqb_spec resprint 0); [contradiction|]. cbn [bind].
    assert (Hc' : exists stop s2, (if (Z.rem (iter + Z.of_nat k) resprint =? 0)%Z || (iter + Z.of_nat k =? maxiter)%Z || (k =? 0)%nat
        then PP_check clk rank0 V tol limit bench maxiter (iter + Z.of_nat k) s1 else Ok (false, s1)) = Ok (stop, s2) /\
        pp_at p k (bst s2) /\ bprev s2 = pW p /\ pptab V R (bmp s2) (pW p) /\ lens (bS s2) = [R; R] /\ bseq s2 = lbuf o /\
        (stop = true -> ppn (bst s2) = grad_norm (pG (bst s2)) /\ nltb (ppn (bst s2)) tol || b = true) /\
        (stop = false -> nltb (grad_norm (pG p)) tol || b = false)).
    { destruct (_ || _ || _) eqn:Eor.
      - destruct (PP_check_J (iter + Z.of_nat k)%Z s1) as (x' & df & Ec & HJ'); [apply Hat|auto|]. rewrite Ec.
        eexists _, _. split; [reflexivity|]. cbn [bst bprev bmp bS bseq ppn pG].
        split; [|split; [auto|split; [auto|split; [auto|split; [auto|split; [auto|]]]]]].
        + destruct Hat as ((P1 & P2 & P3 & P4) & H2 & H3 & H4). split; [|split; [exact H2|split; [exact H3|exact H4]]].
          exact (conj P1 (conj P2 (conj P3 HJ'))).
        + intros Es. destruct Hat as (_ & _ & H3 & H4). destruct (Nat.eq_dec k 0) as [->|Hk0]; [|auto]. rewrite <- H3. exact Es.
      - exists false, s1. split; auto. split; [exact Hat|]. split; [auto|]. split; [auto|]. split; [auto|]. split; [auto|]. split; [discriminate|].
        intros _. apply Hat. intros ->. cbn in Eor. rewrite orb_true_r in Eor. discriminate. }
    destruct Hc' as (stop & s2 & -> & Hat2 & Hprev2 & Htab2 & HS2 & Hsq2 & Hstop & Hnstop). cbn [bind]. destruct stop.
    + exists Break, s2. split; auto. split; auto.
    + rewrite Hprev2, Hsq2. destruct Hat2 as ((P1 & P2 & P3 & P4) & E2 & E3 & _). destruct Hp as (Q1 & Q2 & Q3 & Q4).
      destruct (PP_sweep_ok RL V R LA Hsh (bmp s2) (pW p) (pW (bst s2)) (pG (bst s2)) (pdW (bst s2)) (bS s2) lambda ratio) as (Sm' & Es & HS'); auto.
      { fold o. lia. }
      fold o in Es. rewrite Es. cbn [bind]. eexists Go, _. split; [reflexivity|].
      destruct (pp_sweep_ok_mats lambda ratio (pW p) (pW (bst s2)) (pdW (bst s2))) as [R1 R2]; auto.
      unfold pp_sweep in R1, R2. fold o in R1, R2.
      assert (HG' := pp_grads_mats lambda ratio (pW p) (pW (bst s2)) (pdW (bst s2)) Q1 P1 P3).
      destruct (pp_upto solve lambda ratio V (pW p) R o (pW (bst s2), pdW (bst s2))) as [W' dW'] eqn:EU. fold solve. rewrite EU.
      cbn [fst snd] in *.
      assert (Hpok : pok (mkPP (rescaled W') (pp_grads solve lambda ratio V (pW p) R (pW (bst s2), pdW (bst s2))) dW' (ppn (bst s2)) (pio (bst s2))))
        by (exact (conj R1 (conj HG' (conj R2 P4)))).
      split; [exact Hpok|]. cbn [bS bseq bst bprev bmp]. split; auto. split; auto. split; [discriminate|]. intros _.
      split; auto. split; [|split; auto]. split; [exact Hpok|]. cbn [pW pdW pG]. split.
      * change (Nat.iter (S k) ?f ?x) with (f (Nat.iter k f x)). rewrite <- E2. unfold pps, pp_sweep. fold o. rewrite EU. reflexivity.
      * split; [rewrite E2; reflexivity|auto].
Qed.
Theorem PP_sub_run iter p : pok p -> (iter <= maxiter)%Z ->
  exists f iter' q k,
    alsCP_PP_sub LA clk rank0 same V tol tol_init limit lambda ratio maxiter resprint bench iter p = Ok (iter', q) /\
    match f with
    | Go => (iter + Z.of_nat k = maxiter + 1)%Z /\ iter' = (maxiter + 1 + if bench then 1 else 0)%Z /\ moved p = 0%nat /\ pp_at p k q
    | Break => (iter + Z.of_nat k <= maxiter)%Z /\ iter' = (iter + Z.of_nat k + if bench then 1 else 0)%Z /\ moved p = 0%nat /\ pp_at p k q /\
               ppn q = grad_norm (pG q) /\ nltb (ppn q) tol || b = true
    | Return => (iter' = iter + Z.of_nat k /\ iter' <= maxiter)%Z /\
               ((k = 0%nat /\ (0 < moved p)%nat /\ q = p) \/
                ((0 < k)%nat /\ moved p = 0%nat /\ (Nat.modulo k 15 = 0%nat \/ (0 < moved q)%nat) /\ pp_at p k q))
    end.
Proof.
  intros Hp Hit. unfold alsCP_PP_sub. fold o. assert (Hp' := Hp). destruct Hp' as (HW & HG & HD & HJ).
  rewrite (W_lget LA V R (pW p) 0) by (auto; fold o; lia). cbn [bind].
  destruct (W_dims V R (pW p) 0 HW ltac:(fold o; lia)) as [_ Hc]. rewrite Hc.
  rewrite (mk_regul_ok RL). cbn [bind]. rewrite mk_seqV_ok. cbn [bind].
  set (body := PP_sub_iter _ _ _ _ _ _ _ _ _ _ _ _ _ _ _ _).
  destruct (for_iter_run (pp_reach p) (pp_flow p) body (rounds iter maxiter) 0%nat iter (mkSub p (zeros [R; R]) [] (lbuf o) sempty n0)) as (f & k & s & E & Hs).
  - split; [auto|]. split; [reflexivity|]. split; [reflexivity|]. split; [auto|]. intros []; auto.
  - intros k s Hk Hr. subst body. rewrite Nat.sub_0_r. apply PP_iter_ok; auto.
  - rewrite Nat.sub_0_r in E. rewrite E. cbn [bind]. unfold rounds in Hs. exists f. eexists _, _, k. split; [reflexivity|]. destruct f.
    + destruct Hs as [Ek (H1 & H2 & H3 & H4 & H5)]. destruct H5 as (M0 & Hat & _); [lia|]. split; [lia|]. split; [destruct bench; lia|auto].
    + destruct Hs as [Hk (M0 & Hat & H3 & H4)]. split; [lia|]. split; [destruct bench; lia|]. auto.
    + destruct Hs as [Hk Hs]. split; [lia|]. destruct Hs as [(-> & H1 & ->)|[(H1 & H2 & H3 & H4)|(H1 & H2 & H3 & H4)]]; auto 10.
Qed.
Lemma PP_sub_none iter p : pok p -> (maxiter < iter)%Z ->
  alsCP_PP_sub LA clk rank0 same V tol tol_init limit lambda ratio maxiter resprint bench iter p = Ok ((iter + if bench then 1 else 0)%Z, p).
Proof.
  intros (HW & HG & HD & HJ) Hit. unfold alsCP_PP_sub. fold o.
  rewrite (W_lget LA V R (pW p) 0) by (auto; fold o; lia). cbn [bind].
  destruct (W_dims V R (pW p) 0 HW ltac:(fold o; lia)) as [_ Hc]. rewrite Hc.
  rewrite (mk_regul_ok RL). cbn [bind]. rewrite mk_seqV_ok. cbn [bind].
  unfold rounds. replace (Z.to_nat (maxiter + 1 - iter)) with 0%nat by lia. cbn [for_iter bind bst].
  destruct bench; do 2 f_equal; lia.
Qed.

(** ** the driver loop *)
Context (fuel : nat).
Hypothesis Hf : (o < fuel)%nat.
Let dtsub := alsCP_DT_sub LA clk rank0 fuel V tol tol_init limit lambda maxiter resprint.
Let sub := alsCP_PP_sub LA clk rank0 same V tol tol_init limit lambda ratio maxiter resprint bench.
Theorem while_terminates : lt_asym N -> (bench = true \/ (b = false /\ (o = 4 \/ 6 <= o)%nat)) ->
  forall n wf iter p, pok p -> (maxiter + 1 - iter <= Z.of_nat n)%Z -> (n <= wf)%nat ->
  (iter <= maxiter + 1 + if bench then 1 else 0)%Z ->
  exists iter' q, pp_while wf dtsub sub tol maxiter bench iter p = Ok (iter', q) /\ pok q /\
    (iter <= iter' <= maxiter + 1 + if bench then 1 else 0)%Z /\
    ((iter' <= maxiter)%Z -> nltb tol (ppn q) = false).
Proof.
  intros Hasym Hb. induction n as [|n IH]; intros wf iter p Hp Hn Hwf Hle.
  - assert (E : (nltb tol (ppn p) && (iter <=? maxiter)%Z) = false) by (rewrite andb_comm; destruct (Z.leb_spec iter maxiter); auto; lia).
    exists iter, p. destruct wf; cbn [pp_while]; rewrite E; (split; [auto|split; [auto|split; [lia|lia]]]).
  - destruct (nltb tol (ppn p) && (iter <=? maxiter)%Z) eqn:E.
    2:{ exists iter, p. destruct wf; cbn [pp_while]; rewrite E; (split; [auto|split; [auto|split; [lia|]]]);
        intros Hi; apply andb_false_iff in E as [E|E]; auto; apply Z.leb_gt in E; lia. }
    assert (Hexit : forall wf i q, pok q -> nltb tol (ppn q) = false -> (iter <= i <= maxiter + 1 + if bench then 1 else 0)%Z ->
       exists iter' q', pp_while wf dtsub sub tol maxiter bench i q = Ok (iter', q') /\ pok q' /\
       (iter <= iter' <= maxiter + 1 + if bench then 1 else 0)%Z /\ ((iter' <= maxiter)%Z -> nltb tol (ppn q') = false)).
    { intros w i q Hq Ht Hi. exists i, q. destruct w; cbn [pp_while]; rewrite Ht; auto. }
    apply andb_true_iff in E as [E1 E2]. apply Z.leb_le in E2. destruct wf as [|wf]; [lia|]. cbn [pp_while]. rewrite E1.
    destruct (Z.leb_spec iter maxiter); [|lia]. cbn [andb].
    assert (Hrest : forall it1 p1, pok p1 -> (iter <= it1 <= maxiter + 1)%Z ->
       ((maxiter < it1)%Z -> bench = false) ->
       ((0 < moved p1)%nat -> (iter <= maxiter)%Z -> nltb tol (ppn p1) = false \/ (maxiter < it1)%Z) ->
       exists iter' q, ('(iter, p) <- sub it1 p1 ;; pp_while wf dtsub sub tol maxiter bench iter p) = Ok (iter', q) /\ pok q /\
       (iter <= iter' <= maxiter + 1 + if bench then 1 else 0)%Z /\ ((iter' <= maxiter)%Z -> nltb tol (ppn q) = false)).
    { intros it1 p1 Hp1 Hi1 Hbm Hm. destruct (Z.leb_spec it1 maxiter) as [Hle1|Hgt1].
      2:{ unfold sub. rewrite PP_sub_none by auto. cbn [bind]. assert (bench = false) as Eb by (apply Hbm; auto).
          destruct (IH wf (it1 + if bench then 1 else 0)%Z p1) as (i' & q & E3 & H3 & H4 & H5); auto; try (rewrite Eb; lia); [lia|].
          fold sub. rewrite E3. exists i', q. split; auto. split; auto. split; auto. rewrite Eb in *. lia. }
      destruct (PP_sub_run it1 p1 Hp1 Hle1) as (f & i2 & q & k & Ep & Hcase). fold sub in Ep. rewrite Ep. cbn [bind].
      assert (Hgo : pok q -> (iter < i2 <= maxiter + 1 + if bench then 1 else 0)%Z ->
         exists iter' q', pp_while wf dtsub sub tol maxiter bench i2 q = Ok (iter', q') /\ pok q' /\
         (iter <= iter' <= maxiter + 1 + if bench then 1 else 0)%Z /\ ((iter' <= maxiter)%Z -> nltb tol (ppn q') = false)).
      { intros Hq Hi2. destruct (IH wf i2 q) as (i' & q' & E3 & H3 & H4 & H5); auto; try lia. exists i', q'. split; auto. split; auto. split; auto. lia. }
      destruct f.
      - destruct Hcase as (H1 & H2 & H3 & H4). apply Hgo; [apply H4|]. destruct bench; lia.
      - destruct Hcase as (H1 & H2 & H3 & H4 & H5 & H6).
        destruct (nltb (ppn q) tol) eqn:Et.
        + apply Hexit; [apply H4|apply Hasym; auto|destruct bench; lia].
        + cbn in H6. destruct Hb as [Hb|[Hb _]]; [|congruence]. apply Hgo; [apply H4|]. rewrite Hb in *. lia.
      - destruct Hcase as [H1 [(-> & H2 & ->)|(H2 & H3 & H4 & H5)]].
        + destruct (Hm H2 E2) as [Ht|]; [|lia]. apply Hexit; auto. destruct bench; lia.
        + apply Hgo; [apply H5|]. destruct bench; lia. }
    assert (Hcs : bench = true \/ bench = false) by (clear; destruct bench; auto). destruct Hcs as [Eb|Eb].
    + replace (if bench then Ok (iter, p) else dtsub iter p) with (Ok (iter, p)) by (rewrite Eb; auto).
      cbn [bind]. apply Hrest; auto; try lia. unfold moved. rewrite Eb. lia.
    + destruct Hb as [|[Hb Hord]]; [congruence|].
      replace (if bench then Ok (iter, p) else dtsub iter p) with (dtsub iter p) by (rewrite Eb; auto).
      destruct (DT_sub_run tol tol_init lambda maxiter resprint fuel ltac:(lia) Hf Hlam Hres iter p Hp E2) as (it1 & p1 & k & Ed & Hp1 & _ & Hcase).
      fold dtsub in Ed. rewrite Ed. cbn [bind]. apply Hrest; auto.
      * destruct Hcase as [H1|[[H1 _]|[H1 _]]]; lia.
      * intros Hm _. destruct Hcase as [H1|[(H1 & H2 & H3)|(H1 & H2)]].
        -- right. lia.
        -- left. rewrite Hb, orb_false_r in H3. apply Hasym. auto.
        -- exfalso. unfold moved in Hm. rewrite Eb in Hm. rewrite count_zero in Hm; [lia|]. intros m Hmo. apply Hasym, H2. auto.
Qed.
(** once the limit is exceeded on a checked iteration and the gradient norm is above tol, the loop never ends *)
Theorem while_diverges : lt_asym N -> bench = false -> b = true -> (o = 4 \/ 6 <= o)%nat ->
  forall wf iter p, pok p -> (iter <= maxiter)%Z -> checked maxiter resprint iter = true ->
  nltb tol (ppn p) = true -> nltb tol (grad_norm (pG p)) = true ->
  pp_while wf dtsub sub tol maxiter bench iter p = Err LoopFuel.
Proof.
  intros Hasym Hbe Hb Hord. induction wf as [|wf IH]; intros iter p Hp Hit Hck H1 H2; cbn [pp_while]; rewrite H1;
    (destruct (Z.leb_spec iter maxiter); [|lia]); cbn [andb]; auto.
  replace (if bench then Ok (iter, p) else dtsub iter p) with (dtsub iter p) by (rewrite Hbe; auto).
  destruct (DT_sub_stuck tol tol_init lambda maxiter resprint fuel ltac:(lia) Hf Hres iter p Hb Hp Hit Hck) as (x' & Ed & HJ').
  fold dtsub in Ed. rewrite Ed. cbn [bind]. set (p1 := mkPP _ _ _ _ x').
  destruct Hp as (P1 & P2 & P3 & P4).
  assert (Hp1 : pok p1) by (exact (conj P1 (conj P2 (conj P3 HJ')))).
  destruct (PP_sub_run iter p1 Hp1 Hit) as (f & i2 & q & k & Ep & Hcase). fold sub in Ep. rewrite Ep. cbn [bind].
  rewrite Hbe in Hcase. destruct f.
  - destruct Hcase as (C1 & _ & _ & (_ & _ & _ & C2)). rewrite Hb, orb_true_r in C2. exfalso. discriminate C2. lia.
  - destruct Hcase as (C1 & -> & C3 & Hat & C5 & C6). destruct (Nat.eq_dec k 0) as [->|Hk].
    + destruct Hat as (A1 & A2 & A3 & _). assert (EG : pG q = pG p) by (rewrite A3; reflexivity).
      replace (iter + Z.of_nat 0 + 0)%Z with iter by lia. apply IH; auto; rewrite ?C5, EG; auto.
    + destruct Hat as (_ & _ & _ & C2). rewrite Hb, orb_true_r in C2. specialize (C2 Hk). discriminate.
  - destruct Hcase as [(-> & C1) [(-> & C2 & ->)|(C2 & C3 & _ & (_ & _ & _ & C4))]].
    + replace (iter + Z.of_nat 0)%Z with iter by lia. apply IH; auto.
    + rewrite Hb, orb_true_r in C4. assert (k <> 0%nat) as Hk by lia. specialize (C4 Hk). discriminate.
Qed.

(** benchmark mode *)
Theorem bench_not_exhausted : bench = true -> b = false -> (forall G : list (tensor N), nltb (grad_norm G) tol = false) ->
  forall wf iter p iter' q, pok p -> (iter <= maxiter \/ iter = maxiter + 2)%Z ->
  pp_while wf dtsub sub tol maxiter bench iter p = Ok (iter', q) -> iter' <> (maxiter + 1)%Z.
Proof.
  intros Hbe Hb Htol. induction wf as [|wf IH]; intros iter p iter' q Hp Hi E; cbn [pp_while] in E;
    (destruct (nltb tol (ppn p) && (iter <=? maxiter)%Z) eqn:Ec; [|injection E as <- <-; lia]).
  - discriminate.
  - apply andb_true_iff in Ec as [_ Ec]. apply Z.leb_le in Ec.
    replace (if bench then Ok (iter, p) else dtsub iter p) with (Ok (iter, p)) in E by (rewrite Hbe; auto). cbn [bind] in E.
    destruct (PP_sub_run iter p Hp Ec) as (f & i2 & q2 & k & Ep & Hcase). fold sub in Ep. rewrite Ep in E. cbn [bind] in E.
    revert E. rewrite Hbe in Hcase. destruct f.
    + destruct Hcase as (C1 & C2 & C3 & C4). apply IH; [apply C4|lia].
    + destruct Hcase as (C1 & C2 & C3 & C4 & C5 & C6). rewrite C5, Htol, Hb in C6. discriminate.
    + destruct Hcase as [C1 [(-> & C2 & ->)|(C2 & C3 & C4 & C5)]]; apply IH; try lia; auto. apply C5.
Qed.
(** the gradients recorded by the k-th sweep after the checkpoint p (0: those the caller supplied) *)
Definition pp_grad_at (W G : list (tensor N)) (k : nat) : list (tensor N) :=
  match k with O => G | S k' => pp_grads solve lambda ratio V W R (Nat.iter k' (pps W) (W, zmats V R)) end.
Theorem bench_exhausts : bench = true -> b = false ->
  forall wf p, pok p -> (0 <= maxiter < 15)%Z -> nltb tol (ppn p) = true ->
  (forall k, (Z.of_nat k <= maxiter)%Z -> nltb (grad_norm (pp_grad_at (pW p) (pG p) k)) tol = false) ->
  exists q, pp_while (S wf) dtsub sub tol maxiter bench 0 p = Ok ((maxiter + 2)%Z, q) /\ pp_at p (Z.to_nat (maxiter + 1)) q.
Proof.
  intros Hbe Hb wf p Hp Hm Ht Htol. cbn [pp_while]. rewrite Ht. destruct (Z.leb_spec 0 maxiter); [|lia]. cbn [andb].
  replace (if bench then Ok (0%Z, p) else dtsub 0 p) with (Ok (0%Z, p)) by (rewrite Hbe; auto). cbn [bind].
  destruct (PP_sub_run 0 p Hp) as (f & i2 & q & k & Ep & Hcase); [lia|]. fold sub in Ep. rewrite Ep. cbn [bind].
  rewrite Hbe in Hcase. destruct f.
  - destruct Hcase as (C1 & C2 & C3 & C4). exists q. replace (Z.to_nat (maxiter + 1)) with k by lia. split; auto.
    replace i2 with (maxiter + 2)%Z by lia.
    destruct wf; cbn [pp_while]; (destruct (Z.leb_spec (maxiter + 2) maxiter); [lia|]); rewrite andb_false_r; auto.
  - destruct Hcase as (C1 & C2 & C3 & C4 & C5 & C6). destruct C4 as (_ & _ & C7 & _). rewrite C5, C7 in C6. fold (pp_grad_at (pW p) (pG p) k) in C6. rewrite Htol, Hb in C6 by lia. discriminate.
  - destruct Hcase as [C1 [(-> & C2 & ->)|(C2 & C3 & C4 & C5)]].
    + unfold moved in C2. rewrite Hbe in C2. lia.
    + destruct C4 as [C4|C4]; [|unfold moved in C4; rewrite Hbe in C4; lia].
      exfalso. assert (k < 15)%nat by lia. rewrite Nat.mod_small in C4 by auto. lia.
Qed.
Theorem bench_converged : bench = true -> b = false -> lt_asym N ->
  forall wf p, pok p -> maxiter = 0%Z -> nltb tol (ppn p) = true -> nltb (grad_norm (pG p)) tol = true ->
  exists q, pp_while (S wf) dtsub sub tol maxiter bench 0 p = Ok (1%Z, q) /\ pW q = pW p /\ ppn q = grad_norm (pG q) /\ pG q = pG p.
Proof.
  intros Hbe Hb Has wf p Hp Hm Ht Hg. cbn [pp_while]. rewrite Ht. destruct (Z.leb_spec 0 maxiter); [|lia]. cbn [andb].
  replace (if bench then Ok (0%Z, p) else dtsub 0 p) with (Ok (0%Z, p)) by (rewrite Hbe; auto). cbn [bind].
  destruct (PP_sub_run 0 p Hp) as (f & i2 & q & k & Ep & Hcase); [lia|]. fold sub in Ep. rewrite Ep. cbn [bind].
  rewrite Hbe in Hcase. destruct f.
  - destruct Hcase as (C1 & C2 & C3 & (_ & _ & _ & C4)). rewrite Hg in C4. assert (k <> 0%nat) as Hk by lia. discriminate (C4 Hk).
  - destruct Hcase as (C1 & C2 & C3 & C4 & C5 & C6). assert (k = 0%nat) by lia. subst k. destruct C4 as (_ & C4 & C7 & _).
    exists q. replace i2 with 1%Z by lia. cbn in C4. injection C4 as C4 _.
    split; [destruct wf; cbn [pp_while]; (destruct (Z.leb_spec 1 maxiter); [lia|]); rewrite andb_false_r; auto|auto].
  - destruct Hcase as [C1 [(-> & C2 & ->)|(C2 & C3 & C4 & C5)]]; [|lia].
    unfold moved in C2. rewrite Hbe in C2. lia.
Qed.
End PPphase.
End Clock.
End P.
