(** Proofs about run.cxx after the options *)
From Coq Require Import List ZArith QArith Bool Arith Lia String Ascii Permutation Ring.
From Verif Require Import Base Num Tensor Spec Spec3 Spec4 Spec5 MCommon MCP MOpt MOptLR MCPD MGen MRun PBase PTensor PSum PBuildV PGen PGen2 POpt POptTree POptEval PCPD2.
Import ListNotations.
Local Close Scope Q_scope.

Section P.
Context {N : num}.
Local Open Scope num_scope.

Lemma write_lens (ps : list (nat * N)) : forall T T', write T ps = Ok T' -> lens T' = lens T.
Proof.
  induction ps as [|[g v] ps IH]; intros T T' E; cbn [write] in E; [congruence|].
  destruct (Nat.ltb g (List.length (data T))); [|discriminate]. apply IH in E. exact E.
Qed.
Lemma loop_unit n : forall lo (body : nat -> unit -> res unit), loop n lo body tt = Ok tt -> forall i, lo <= i < lo + n -> body i tt = Ok tt.
Proof.
  induction n; intros lo body E i Hi; [lia|]. cbn [loop] in E. destruct (body lo tt) as [[]|] eqn:Eb; [|discriminate]. cbn [bind] in E.
  destruct (Nat.eq_dec i lo) as [->|]; auto. apply (IHn (S lo)); auto. lia.
Qed.
Lemma assert_ok b : cpd_assert b = Ok tt -> b = true.
Proof. destruct b; auto. discriminate. Qed.
Lemma init_inv ord size r (V : tensor N) W : cpd_init ord size r V W = Ok tt -> order V = ord /\ forall i, i < ord -> nth i (lens V) 0%nat = size.
Proof.
  unfold cpd_init. destruct (cpd_assert (order V =? ord)%nat) as [[]|] eqn:E; [|discriminate]. cbn [bind]. apply assert_ok in E. apply Nat.eqb_eq in E.
  intros H. split; auto. intros i Hi. unfold for_ in H. apply (fun H => loop_unit _ _ _ H i) in H; [|lia]. cbn beta in H.
  rewrite (lget_ok _ _ 0%nat) in H by (unfold order in E; lia). cbn [bind] in H.
  destruct (cpd_assert (nth i (lens V) 0 =? size)%nat) as [[]|] eqn:E2; [|discriminate]. apply assert_ok in E2. apply Nat.eqb_eq in E2. auto.
Qed.
Lemma init_bad ord size r (V : tensor N) W : order V <> ord -> cpd_init ord size r V W = Err AssertFail.
Proof. intros H. unfold cpd_init. destruct (Nat.eqb_spec (order V) ord); [congruence|]. reflexivity. Qed.

Context (LA : lapack N) (clk : nat -> N) (rank0 : bool).
Lemma cpd_run_inv m wf ord size r (V : tensor N) W G lambda tol tl ms rp b x v :
  cpd_run LA clk rank0 m wf ord size r V W G lambda tol tl ms rp b x = Ok v -> order V = ord /\ (forall i, i < ord -> nth i (lens V) 0%nat = size) /\ W <> [].
Proof.
  intros H. unfold cpd_run in H.
  assert (HH : forall u W0, cpd_init ord size r V W = Ok u -> lget W 0 = Ok W0 -> order V = ord /\ (forall i, i < ord -> nth i (lens V) 0%nat = size) /\ W <> []).
  { intros [] W0 H1 H2. apply init_inv in H1. destruct H1. repeat split; auto. destruct W; discriminate || congruence. }
  destruct m; binds H; eapply HH; eauto.
Qed.
Lemma new_ok ord (st : opt_st N) : 3 <= ord <= 31 -> (exists s, dt_new ord st = Ok s) /\ (exists s, ms_new ord st = Ok s) /\ (exists s, dl_new ord st = Ok s) /\ (exists s, ml_new ord st = Ok s).
Proof.
  intros Ho. unfold dl_new, ml_new, dt_new, ms_new. rewrite opt_seqV_ok by lia. cbn [bind]. rewrite opt_tree_top_ok by lia. cbn [bind].
  destruct (opt_tree_ok ord Ho) as (t & Et & _). rewrite Et. cbn [bind].
  assert (Hu : exists ix, update_indexes ord (seq 0 (ord - 1)) ((ord - 1 + ord - 1) mod ord) = Ok ix) by (rewrite update_indexes_ok; [eexists; reflexivity|apply Nat.mod_upper_bound; lia|apply seq_length]).
  destruct Hu as (ix & Eu). rewrite Eu. cbn [bind]. repeat split; eexists; reflexivity.
Qed.
Lemma cpd_run_bad m wf ord size r (V : tensor N) W G lambda tol tl ms rp b x : 3 <= ord <= 31 -> order V <> ord ->
  cpd_run LA clk rank0 m wf ord size r V W G lambda tol tl ms rp b x = Err AssertFail.
Proof.
  intros Ho Hv. unfold cpd_run. destruct (new_ok ord (mkOpt W G (zeros [r; r])) Ho) as ((s1 & E1) & (s2 & E2) & (s3 & E3) & (s4 & E4)).
  destruct m; rewrite ?E1, ?E2, ?E3, ?E4, ?opt_seqV_ok by lia; cbn [bind]; rewrite init_bad by auto; reflexivity.
Qed.
Context (env : environment (N := N)).
Hypothesis Hfile : forall f ls, lens (file env f ls) = ls.

(** what the tensor kinds that never decompose produce *)
Lemma tensor_p fuel st V : char_at (s_tensor st) 0 = "p"%char -> second_is "2" (s_tensor st) = false -> run_tensor env fuel st = Ok V ->
  2 <= Z.to_nat (s_dim st) /\ order V = (Z.to_nat (s_dim st) / 2)%nat.
Proof.
  intros H1 H2 E. unfold run_tensor in E. cbv zeta in E. rewrite H1, H2 in E. cbn [Ascii.eqb Bool.eqb] in E.
  destruct (laplacian_tensor _ _ _) as [V0|] eqn:EL in E; [|discriminate]. cbn [bind] in E. apply write_lens in E.
  split.
  - unfold laplacian_tensor in EL. destruct (Nat.ltb_spec (Z.to_nat (s_dim st)) 2); [discriminate|lia].
  - unfold order. rewrite E. cbn [lens zeros tabulate]. apply repeat_length.
Qed.
Lemma file_tensor f a b c d dim V : run_tensor_file env f [a; b; c; d] dim = Ok V -> dim = 4%nat /\ lens V = [a; b; c; d].
Proof.
  unfold run_tensor_file, for_. intros E. destruct dim as [|[|[|[|[|n]]]]].
  1-4: cbn in E; discriminate.
  - cbn in E. injection E as <-. rewrite Hfile. auto.
  - cbn in E. discriminate.
Qed.
Lemma file_tensor_bad f a b c d dim : dim <> 4%nat -> run_tensor_file env f [a; b; c; d] dim = Err UB.
Proof. intros H. destruct dim as [|[|[|[|[|n]]]]]; try reflexivity. congruence. Qed.
Lemma file_tensor_4 f a b c d : run_tensor_file env f [a; b; c; d] 4 = Ok (file env f [a; b; c; d]).
Proof. reflexivity. Qed.
Lemma init_two a b c d size r (V : tensor N) W : lens V = [a; b; c; d] -> a <> b -> List.length W = 4%nat -> cpd_init 4 size r V W = Err AssertFail.
Proof.
  intros HL Hab HW. destruct W as [|w0 [|w1 [|w2 [|w3 [|]]]]]; try discriminate HW. unfold cpd_init, order, for_. rewrite HL.
  cbn [List.length Nat.eqb cpd_assert bind Nat.sub loop lget nth_error of_opt].
  destruct (Nat.eqb_spec a size); cbn [cpd_assert bind]; [|reflexivity]. destruct (Nat.eqb (ncol w0) r); cbn [cpd_assert bind]; [|reflexivity].
  destruct (Nat.eqb_spec b size); cbn [cpd_assert bind]; [|reflexivity]. congruence.
Qed.
Lemma cpd_run_two m wf a b c d size r (V : tensor N) W G lambda tol tl ms rp bn x : lens V = [a; b; c; d] -> a <> b -> List.length W = 4%nat ->
  cpd_run LA clk rank0 m wf 4 size r V W G lambda tol tl ms rp bn x = Err AssertFail.
Proof.
  intros HL Hab HW. unfold cpd_run. destruct (new_ok 4 (mkOpt W G (zeros [r; r])) ltac:(lia)) as ((s1 & E1) & (s2 & E2) & (s3 & E3) & (s4 & E4)).
  destruct m; rewrite ?E1, ?E2, ?E3, ?E4, ?opt_seqV_ok by lia; cbn [bind]; rewrite (init_two a b c d) by auto; reflexivity.
Qed.
Lemma run_some fuel b1 b2 wf st x v : run_main LA clk rank0 env fuel b1 b2 wf st x = Ok (Some v) ->
  exists V, run_tensor env fuel st = Ok V /\ order V = Z.to_nat (s_dim st) /\ (forall i, i < order V -> nth i (lens V) 0%nat = Z.to_nat (s_size st)) /\ order V <> 0%nat.
Proof.
  unfold run_main. cbv zeta. destruct (run_tensor env fuel st) as [V|]; [|discriminate]. cbn [bind].
  destruct (Ascii.eqb (char_at (s_model st) 0) "C"); [|discriminate]. destruct (run_method st) as [m|]; [|discriminate].
  destruct (cpd_run _ _ _ _ _ _ _ _ _ _ _ _ _ _ _ _ _ _) as [r|] eqn:E; [|discriminate]. intros _.
  apply cpd_run_inv in E. destruct E as (E1 & E2 & E3). exists V. split; auto. split; auto. split; [rewrite E1; auto|].
  intros H0. apply E3. unfold run_W. rewrite H0. reflexivity.
Qed.
(** which tensors can be decomposed *)
Definition decomposable (t : string) : Prop :=
  char_at t 0 = "c"%char \/ char_at t 0 = "r"%char \/ (char_at t 0 = "p"%char /\ second_is "2" t = true).
Lemma only_decomposable fuel b1 b2 wf st x v : run_main LA clk rank0 env fuel b1 b2 wf st x = Ok (Some v) -> decomposable (s_tensor st).
Proof.
  intros H. apply run_some in H as (V & E & HO & HL & H0). unfold decomposable.
  pose proof E as E'. unfold run_tensor in E. cbv zeta in E.
  destruct (Ascii.eqb_spec (char_at (s_tensor st) 0) "p") as [Hp|Hp].
  - destruct (second_is "2" (s_tensor st)) eqn:E2; [auto|]. exfalso. destruct (tensor_p _ _ _ Hp E2 E') as (H2 & H3).
    rewrite HO in H3. pose proof (Nat.div_lt (Z.to_nat (s_dim st)) 2 ltac:(lia) ltac:(lia)). lia.
  - destruct (Ascii.eqb_spec (char_at (s_tensor st) 0) "c") as [Hc|Hc]; [auto|].
    destruct (Ascii.eqb_spec (char_at (s_tensor st) 0) "r") as [Hr|Hr]; [auto|]. exfalso.
    destruct (Ascii.eqb_spec (char_at (s_tensor st) 0) "o") as [Ho|Ho].
    + destruct (second_is "1" (s_tensor st)).
      { apply file_tensor in E as (Hd & Hl). pose proof (HL 0%nat ltac:(lia)) as A. pose proof (HL 1%nat ltac:(rewrite HO; lia)) as B. rewrite Hl in A, B. cbn [nth] in A, B. lia. }
      destruct (second_is "2" (s_tensor st)).
      { apply file_tensor in E as (Hd & Hl). pose proof (HL 0%nat ltac:(lia)) as A. pose proof (HL 3%nat ltac:(rewrite HO; lia)) as B. rewrite Hl in A, B. cbn [nth] in A, B. lia. }
      injection E as <-. apply H0. reflexivity.
    + injection E as <-. apply H0. reflexivity.
Qed.
End P.

(** ** the tensors that are decomposed *)
Section T.
Context {N : num} (RL : ring_laws N) (env : environment (N := N)).
Let RT : ring_theory (@n0 N) n1 nadd nmul nsub nopp (@eq N) := RL.
Add Ring Nring2 : RT.
Local Open Scope num_scope.
Lemma tensor_p2 fuel st d : char_at (s_tensor st) 0 = "p"%char -> second_is "2" (s_tensor st) = true ->
  s_dim st = Z.of_nat (2 * d) -> 2 <= d <= 15 -> (1 <= s_size st)%Z ->
  run_tensor env fuel st = Ok (laplace d (Z.to_nat (s_size st))).
Proof.
  intros H1 H2 Hd Hr Hs. unfold run_tensor. cbv zeta. rewrite H1, H2, Hd, Nat2Z.id. cbn [Ascii.eqb Bool.eqb]. unfold cube.
  rewrite (laplacian_ok RL) by (auto using zeros_wf; lia). f_equal. apply tabulate_ext. intros x Hx. unfold zeros. rewrite at_tabulate by auto. apply (Radd_0_l RL).
Qed.
Lemma tensor_r2 fuel st : char_at (s_tensor st) 0 = "r"%char -> second_is "2" (s_tensor st) = true ->
  run_tensor env fuel st = Ok (rng env 0 (repeat (Z.to_nat (s_size st)) (Z.to_nat (s_dim st)))).
Proof. intros H1 H2. unfold run_tensor. cbv zeta. rewrite H1, H2. reflexivity. Qed.
Hypothesis Hrng : forall k ls, lens (rng env k ls) = ls /\ wf (rng env k ls).
Lemma tensor_r fuel st : char_at (s_tensor st) 0 = "r"%char -> second_is "2" (s_tensor st) = false -> (2 <= s_dim st <= 19)%Z ->
  run_tensor env fuel st = Ok (cp_full (map (fun i => rng env i [Z.to_nat (s_size st); Z.to_nat (s_rank st)]) (seq 0 (Z.to_nat (s_dim st)))) (Z.to_nat (s_rank st))).
Proof.
  intros H1 H2 Hd. unfold run_tensor. cbv zeta. rewrite H1, H2. cbn [Ascii.eqb Bool.eqb]. apply (build_V_ok RL); try lia.
  - rewrite map_length, seq_length. auto.
  - intros m Hm. exists (Z.to_nat (s_size st)). unfold fac. rewrite (nth_map_lt _ _ _ 0%nat) by (rewrite seq_length; auto). rewrite nth_seq by auto. apply Hrng.
Qed.
(** c: the collinear tensor and scaled noise *)
Lemma tensor_c fuel st : char_at (s_tensor st) 0 = "c"%char -> (2 <= s_dim st <= 19)%Z ->
  let dim := Z.to_nat (s_dim st) in let s := Z.to_nat (s_size st) in
  run_tensor env fuel st =
    (X <- Gen_collinearity (fun k n => rng env k [n]) fuel (repeat s dim) dim (Z.to_nat (s_rank st)) (s_colmin st) (s_colmax st) ;;
     let Z0 := rng env 0 (repeat s dim) in
     Ok (tabulate (repeat s dim) (fun x => at_ X x + (s_rationoise st * norm2 X / norm2 Z0) * at_ Z0 x))).
Proof.
  intros H1 Hd dim s. unfold run_tensor. cbv zeta. rewrite H1. cbn [Ascii.eqb Bool.eqb]. fold dim s. unfold run_tensor_c.
  rewrite (bset_ok (newbuf (dim + 1))) by (rewrite newbuf_length; lia). cbn [bind].
  destruct (chars_fill dim (lset (newbuf (dim + 1)) dim (Some 0%Z))) as (ba & Ea & La & Ta); [lia|rewrite lset_length, newbuf_length; lia|].
  rewrite Ea. cbn [bind]. unfold cube.
  assert (HL : List.length (repeat s dim) = dim) by apply repeat_length.
  destruct (Gen_ok RL (fun k n => rng env k [n]) (repeat s dim) dim (Z.to_nat (s_rank st)) (s_colmin st) (s_colmax st) (fun k n => Hrng k [n]) HL fuel ltac:(lia)) as [(vec & Hv & Hp & E)|E]; rewrite E; cbn [bind]; auto.
  match goal with |- context [tix ?T ba] => set (X := T) end.
  assert (LX : lens X = repeat s dim) by reflexivity. assert (wX : wf X) by apply tabulate_wf.
  unfold tix, order. rewrite LX, HL, Ta by lia. cbn [bind].
  destruct (Hrng 0%nat (repeat s dim)) as (LZ & wZ). set (Z0 := rng env 0 (repeat s dim)) in *.
  rewrite (scale_term RL (fun k n => rng env k [n]) (repeat s dim) dim 0 (fun k n => Hrng k [n]) HL) by (auto; lia). cbn [bind].
  rewrite (acc_term RL (fun k n => rng env k [n]) (repeat s dim) dim 0 (fun k n => Hrng k [n]) HL) by (auto using tabulate_wf; lia). f_equal. apply tabulate_ext. intros x Hx. rewrite at_tabulate by auto. cbv zeta. ring.
Qed.
End T.
