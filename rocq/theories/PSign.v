(** sign alignment *)
From Coq Require Import List ZArith Lia Bool Arith Permutation Ring.
From Verif Require Import Base Num Tensor Spec Spec7 MCommon MCP MTucker PBase PTensor PSum PMttkrp PMat PGrad PTtm PTucker.
Import ListNotations.

Ltac ev := cbv -[nadd nmul nopp nsub n0 n1 bigsum at_ el seq car gram_at].
Ltac fit := let t := fresh "t" in let p := fresh "p" in let H := fresh "H" in
  intros t H; simpl in H; repeat (destruct H as [H|H]; [subst t|]); try contradiction;
  intros p H; simpl in H; repeat (destruct H as [H|H]; [subst p|]); try contradiction; simpl; unfold d3; simpl; auto.

Section P.
Context {N : num} (RL : ring_laws N) (LA : lapack N).
Let RT : ring_theory (@n0 N) n1 nadd nmul nsub nopp (@eq N) := RL.
Add Ring NringS : RT.
Local Open Scope num_scope.

Lemma assign_cross (C A B : tensor N) k n : lens C = [k; k] -> lens A = [n; k] -> lens B = [n; k] ->
  assign false C sik [prodt [(A, sji); (B, sjk)]] = Ok (mk k k (fun i j => bigsum (seq 0 n) (fun x => el A x i * el B x j))).
Proof.
  intros HC HA HB. apply (assign_mat (d3 k n k)); auto.
  - discriminate.
  - fit.
  - intros i j Hi Hj. ev. transitivity (bigsum (seq 0 n) (fun x => at_ A [x; i] * at_ B [x; j])).
    + rewrite <- (Rmul_1_l RL (bigsum (seq 0 n) (fun x => at_ A [x; i] * at_ B [x; j]))). f_equal.
      apply bigsum_ext. intros x _. ring.
    + reflexivity.
Qed.
Lemma inb1_inv r idx : inb [r] idx -> exists i, idx = [i] /\ i < r.
Proof. intros H. inversion H; subst. inversion H4; subst. eauto. Qed.
Lemma assign_diag_out (C A : tensor N) k : lens C = [k] -> lens A = [k; k] ->
  assign false C [ch_i] [prodt [(A, [ch_i; ch_i])]] = Ok (tabulate [k] (fun idx => el A (nth 0 idx 0%nat) (nth 0 idx 0%nat))).
Proof.
  intros HC HA.
  destruct (assign_rep (d3 k k k) false C [ch_i] [prodt [(A, [ch_i; ch_i])]]) as (B & E & WB & LB & AB).
  - constructor; [intros []|constructor].
  - auto.
  - fit.
  - rewrite E. f_equal. apply tensor_ext; auto; [apply tabulate_wf|]. intros idx Hi. rewrite LB in Hi. cbn in Hi.
    destruct (inb1_inv _ _ Hi) as (i & -> & Hik).
    rewrite at_tabulate by auto. cbn [nth].
    specialize (AB (fun _ => i)). change (map (fun _ : Z => i) [ch_i]) with [i] in AB. rewrite AB.
    + ev. unfold el. ring.
    + intros c [<-|[]]. exact Hik.
Qed.
Lemma assign_diag_in (S0 : tensor N) k : lens S0 = [k] ->
  assign false (zeros [k; k]) [ch_i; ch_i] [prodt [(S0, [ch_i])]] = Ok (mdiag k (fun i => at_ S0 [i])).
Proof.
  intros HS. unfold assign. cbn [length order zeros tabulate lens Nat.eqb andb forallb].
  replace (term_ok (zeros [k; k]) [ch_i; ch_i] (prodt [(S0, [ch_i])])) with true.
  2:{ unfold term_ok, lengths_ok, consistent, dims, order. cbn [prodt facs forallb flat_map fst snd app combine zeros tabulate lens].
      rewrite HS. cbn. rewrite Nat.eqb_refl. auto. }
  cbn [andb]. f_equal. unfold mdiag. apply tabulate_ext. intros idx Hi. destruct (inb2_inv _ _ _ Hi) as (i & j & -> & Hi1 & Hj1).
  cbn [nth]. unfold addressed, consistent. cbn [combine forallb fst snd assoc]. rewrite Z.eqb_refl. cbn [andb].
  rewrite Nat.eqb_refl, andb_true_r. cbn [andb]. destruct (Nat.eqb_spec i j) as [->|Hn]; cbn [andb].
  - cbn [terms_val fold_left]. unfold term_val, contracted. cbn [prodt facs coef flat_map snd app filter memc existsb].
    rewrite Z.eqb_refl. cbn [orb negb nodup sumc bigprod fold_right fst snd map assoc combine]. rewrite Z.eqb_refl. ring.
  - unfold zeros. rewrite at_tabulate by auto. auto.
Qed.
Lemma bigsum_delta n j (f : nat -> N) : j < n -> bigsum (seq 0 n) (fun x => f x * (if Nat.eqb x j then n1 else n0)) = f j.
Proof.
  intros Hj. rewrite (bigsum_single RL (seq 0 n) _ j).
  - rewrite Nat.eqb_refl. ring.
  - apply seq_NoDup.
  - apply in_seq. lia.
  - intros x _ Hx. destruct (Nat.eqb_spec x j); [contradiction|]. ring.
Qed.
Theorem sign_align_ok (U Sg P : tensor N) n k : is_mat U n k -> is_mat P n k -> lens Sg = [k] -> wf Sg ->
  sign_align U Sg P = Ok (aligned U P).
Proof.
  intros HU HP HS WS. pose proof HU as (LU & WU). pose proof HP as (LP & WP).
  unfold sign_align. rewrite (mat_ncol _ _ _ HU). rewrite (assign_cross _ U P k n) by auto. cbn [bind].
  rewrite (assign_diag_out _ _ k) by auto. cbn [bind].
  set (D := mkT _ _).
  rewrite (assign_diag_in D k) by reflexivity. cbn [bind].
  rewrite (assign_mm RL _ _ _ n k k); [|auto|auto|reflexivity]. f_equal.
  apply (mat_ext _ _ n k); [apply mk_mat| |].
  { split; [rewrite <- LU; reflexivity|apply tabulate_wf]. }
  intros i j Hi Hj. rewrite el_mk by auto. unfold aligned, el at 3. rewrite at_tabulate by (rewrite LU; apply inb2; auto). cbn [nth].
  assert (HD : forall x, x < k -> at_ D [x] = if nltb n0 (col_inner U P x) then n1 else - n1).
  { intros x Hx. unfold D, at_. cbn [lens data tabulate lin]. rewrite Nat.mul_0_r, Nat.add_0_r.
    rewrite map_map. rewrite (nth_map_lt _ _ _ []) by (cbn [all_idx flat_map app]; rewrite app_nil_r, map_length, seq_length; auto).
    assert (nth x (all_idx [k]) [] = [x]) as ->.
    { cbn [all_idx flat_map app]. rewrite app_nil_r. rewrite (nth_map_lt _ _ _ 0%nat) by (rewrite seq_length; auto). rewrite nth_seq; auto. }
    cbn [nth]. rewrite el_mk by auto. unfold col_inner. rewrite (mat_nrow _ _ _ HU). auto. }
  rewrite <- (bigsum_delta k j (fun x => el U i x * (if nltb n0 (col_inner U P x) then n1 else - n1))) by auto.
  apply bigsum_ext. intros x Hx. apply in_seq in Hx.
  unfold el at 2. unfold mdiag. rewrite at_tabulate by (apply inb2; lia). cbn [nth].
  destruct (Nat.eqb x j); [rewrite HD by lia; ring|ring].
Qed.
Lemma aligned_mat (U P : tensor N) n k : is_mat U n k -> is_mat (aligned U P) n k.
Proof. intros (L & _). split; [rewrite <- L; reflexivity|apply tabulate_wf]. Qed.
End P.
