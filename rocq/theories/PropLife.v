(** C39: object lifetime.  The store is the one of MLife.v; its primitives are: alloc (new, new[]), del (delete, delete[];
    undefined unless the block is live and of the right form, null is ignored), use (any access through a pointer).
    A caller makes an object with the constructor, hands it a tensor V and an array W of matrices with Init, makes any
    number of optimizer steps, and destroys it. *)
From Coq Require Import List ZArith Lia Bool Arith.
From Verif Require Import Base MLife PLife PLife2.
Import ListNotations.

(** the whole life of one object *)
Definition life (k : okind) (order s r : nat) (world : ptr) (V : tensor_arg) (W : mats_arg) (steps : list (bool * bool)) (h : heap) : res heap :=
  let '(d, h) := cpd_ctor k order s r world h in
  '(d, h) <- cpd_Init d V W h ;;
  '(d, h) <- cpd_steps steps d h ;;
  cpd_dtor d h.

(** how many blocks an optimizer of each kind loses: the multi-sweep low-rank optimizer never releases old_W *)
Definition lost (k : okind) : nat := match k with KMSDTLR => 1 | _ => 0 end.

(** Every kind of optimizer, any order, size and rank, any storage before the object is made, any number of steps (for the
    two-subtree low-rank optimizer: in which a low-rank step of a subtree follows a full step of it; see the next theorem):
    no undefined behaviour, and afterwards the live blocks are those that were live before, without W (released, once,
    although the caller allocated it), with V (not released), and for the multi-sweep low-rank optimizer with one more block,
    a leak.  No other block remains. *)
Theorem C39_lifecycle :
  forall k order s r h0 v w x bv bx steps,
    wf h0 -> live h0 v = Some bv -> live h0 w = Some Arr -> live h0 x = Some bx -> v <> w -> schedule steps ->
    exists h lk,
      life k order s r (At x) (mkTA (At v) (repeat s order)) (mkMA (At w) (repeat r order)) steps h0 = Ok h /\
      length lk = lost k /\ (forall j, In j lk -> live h0 j = None) /\
      (forall j b, live h j = Some b <-> (live h0 j = Some b /\ j <> w) \/ (In j lk /\ b = Arr)).
Proof.
  intros k order s r h0 v w x bv bx steps WF Lv Lw Lx NE Sch.
  destruct (init_ready k order s r h0 v w x bv bx (repeat s order) (repeat r order) WF Lv Lw Lx NE eq_refl eq_refl)
    as (d & h & E & R & Ek & _ & _ & _ & _ & _ & Ec).
  unfold life. destruct (cpd_ctor k order s r (At x) h0) as (d1, h1). rewrite E. cbn [bind].
  pose proof (live_lt _ _ _ WF Lw) as Bw.
  destruct (steps_ok h0 v w bv WF Lv NE Bw steps [] d h R) as (d' & h' & E' & R' & Ek' & _); [|exact Sch|].
  { intros _ f []. }
  rewrite E'. cbn [bind].
  destruct (dtor_ok h0 (Some w) d' h' (rd_inv _ _ _ _ _ R')) as (h4 & E4 & _ & lk & L1 & L2 & L3).
  { pose proof (rd_old _ _ _ _ _ R') as X. destruct (o_kind (d_optr d')); auto. apply X. }
  { intros ? [= <-]. exact Bw. }
  { exact WF. }
  exists h4, lk. split; [exact E4|]. split; [rewrite L1, Ek', Ek; reflexivity|]. split; [exact L2|].
  intros j b. rewrite L3. split; intros [[A B]|A]; auto; left; split; auto; congruence.
Qed.

(** the two-subtree low-rank optimizer always makes such a schedule, however many steps it makes and whichever of them
    perform a low-rank update *)
Theorem C39_lowrank_schedule : forall hits, schedule (dl_schedule true 0 false hits).
Proof.
  intro hits. pose proof (dl_schedule_ok hits true 0 false [] ltac:(discriminate) ltac:(lia) schedule_nil) as H. exact H.
Qed.

(** an object that is never initialised can be destroyed *)
Theorem C39_destroy_without_init :
  forall k order s r x h0, wf h0 ->
    exists h lk, (let '(d, h1) := cpd_ctor k order s r (At x) h0 in cpd_dtor d h1) = Ok h /\ length lk = lost k /\ (forall j, In j lk -> live h0 j = None) /\
      (forall j b, live h j = Some b <-> live h0 j = Some b \/ (In j lk /\ b = Arr)).
Proof.
  intros k order s r x h0 WF. pose proof (ctor_inv k order s r (At x) h0 WF) as I.
  assert (K : o_kind (d_optr (fst (cpd_ctor k order s r (At x) h0))) = k) by (destruct k; reflexivity).
  assert (K2 : match k with KMSDTLR => o_oldW (d_optr (fst (cpd_ctor k order s r (At x) h0))) <> Null | _ => True end)
    by (destruct k; try exact Logic.I; discriminate).
  destruct (cpd_ctor k order s r (At x) h0) as (d1, h1). cbn [fst snd] in *.
  destruct (dtor_ok h0 None d1 h1 I) as (h4 & E4 & _ & lk & L1 & L2 & L3); [rewrite K; exact K2|discriminate|exact WF|].
  exists h4, lk. split; [exact E4|]. rewrite L1, K. split; [reflexivity|]. split; [exact L2|].
  intros j b. rewrite L3. split; intros [A|A]; auto; [left; apply A|left; split; [exact A|discriminate]].
Qed.

(** ** Refutations: call histories with undefined behaviour *)
Definition noassert {A} (x : res A) : Prop := forall e, x = Err e -> e = UB.
Lemma na_bind {A B} (x : res A) (f : A -> res B) : noassert x -> (forall a, noassert (f a)) -> noassert (bind x f).
Proof. intros H1 H2 e. destruct x; cbn; [apply H2|]. intro E; apply H1. congruence. Qed.
Lemma na_ok {A} (a : A) : noassert (Ok a). Proof. intros e H; discriminate. Qed.
Lemma na_use p h : noassert (use p h).
Proof. intros e. destruct p as [| |i]; cbn; try congruence. destruct (live h i); congruence. Qed.
Lemma na_del k p h : noassert (del k p h).
Proof. intros e. destruct p as [| |i]; cbn; try congruence. destruct (live h i) as [k'|]; [destruct (block_eqb k k')|]; congruence. Qed.
Lemma na_nonnull p : noassert (nonnull p). Proof. intros e. destruct p; cbn; congruence. Qed.
Lemma na_del_if k p h : noassert (del_if k p h).
Proof. apply na_bind; [apply na_nonnull|]. intros []; [apply na_del|apply na_ok]. Qed.
Lemma na_loop (body : nat -> res unit) : forall n i, (forall j, i <= j < i + n -> noassert (body j)) -> noassert (loop n i (fun j _ => body j) tt).
Proof. induction n as [|n IH]; intros i H; cbn; [apply na_ok|]. apply na_bind; [apply H; lia|]. intros []. apply IH. intros j Hj. apply H. lia. Qed.

Lemma na_init d V W h : fits d V W -> o_order (d_optr d) = d_order d -> o_rank (d_optr d) = d_rk d -> noassert (cpd_Init d V W h).
Proof.
  intros [F1 F2] E1 E2. unfold cpd_Init.
  assert (ND : noassert (decomp_Init d V W h)).
  { unfold decomp_Init. apply na_bind; [apply na_use|]. intros _. rewrite F1, repeat_length, Nat.eqb_refl. cbn [check bind].
    apply na_bind; [|intros _; apply na_bind; [apply na_del_if|]; intro; apply na_bind; [apply na_nonnull|]; intros []; (apply na_bind; [apply na_del || apply na_ok|]; intro; apply na_ok)].
    unfold for_. apply na_loop. intros j Hj. unfold lget. rewrite nth_repeat_err by lia. cbn [of_opt bind].
    apply na_bind; [apply na_use|]. intros _. rewrite Nat.eqb_refl. cbn [check bind]. apply na_bind; [apply na_use|]. intros _.
    rewrite F2, nth_repeat_err by lia. cbn [of_opt bind]. apply na_bind; [apply na_use|]. intros _. rewrite Nat.eqb_refl. apply na_ok. }
  destruct (decomp_Init d V W h) as [[d1 h1]|e] eqn:ED; cbn [bind].
  2:{ intros e' [= <-]. apply ND; reflexivity. }
  assert (O : d_optr d1 = d_optr d).
  { unfold decomp_Init in ED. repeat match type of ED with context [bind ?x _] => destruct x; cbn [bind] in ED; [|discriminate] end.
    injection ED as <- <-. reflexivity. }
  apply na_bind; [apply na_del_if|]. intro h2. unfold alloc. do 4 (apply na_bind; [apply na_use|]; intros _).
  apply na_bind; [|intros [? ?]; apply na_ok]. rewrite O. unfold configure.
  apply na_bind; [apply na_use|]. intros _. rewrite F1, repeat_length, E1, Nat.eqb_refl. cbn [check bind].
  apply na_bind.
  { unfold for_. apply na_loop. intros j Hj. apply na_bind; [apply na_use|]. intros _. unfold lget. rewrite F2, nth_repeat_err by lia. cbn [of_opt bind].
    rewrite E2, Nat.eqb_refl. apply na_ok. }
  intros _. do 3 (apply na_bind; [apply na_del_if|]; intro). apply na_bind; [apply na_use|]. intros _. apply na_ok.
Qed.

(** initialising the same object a second time never succeeds, whatever the arguments and however many steps were made in
    between; with arguments of the right shape it is undefined behaviour (the tensor V is deleted twice, or deleted although
    it is not on the heap) *)
Theorem C39_second_init :
  forall k order s r h0 v w x bv bx steps,
    wf h0 -> live h0 v = Some bv -> live h0 w = Some Arr -> live h0 x = Some bx -> v <> w -> schedule steps ->
    forall V2 W2,
    let twice := (let '(d, h) := cpd_ctor k order s r (At x) h0 in
                  '(d, h) <- cpd_Init d (mkTA (At v) (repeat s order)) (mkMA (At w) (repeat r order)) h ;;
                  '(d, h) <- cpd_steps steps d h ;;
                  cpd_Init d V2 W2 h) in
    (exists e, twice = Err e) /\
    (t_lens V2 = repeat s order -> m_ncols W2 = repeat r order -> twice = Err UB).
Proof.
  intros k order s r h0 v w x bv bx steps WF Lv Lw Lx NE Sch V2 W2.
  destruct (init_ready k order s r h0 v w x bv bx (repeat s order) (repeat r order) WF Lv Lw Lx NE eq_refl eq_refl)
    as (d & h & E & R & Ek & X1 & X2 & X3 & X4 & X5 & Ec).
  destruct (cpd_ctor k order s r (At x) h0) as (d1, h1). rewrite E. cbn [bind].
  pose proof (live_lt _ _ _ WF Lw) as Bw. pose proof (live_lt _ _ _ WF Lv) as Bv.
  destruct (steps_ok h0 v w bv WF Lv NE Bw steps [] d h R) as (d' & h' & E' & R' & Ek' & Y1 & Y2 & Y3 & Y4 & Y5); [|exact Sch|].
  { intros _ f []. }
  rewrite E'. cbn [bind].
  assert (B : exists e, cpd_Init d' V2 W2 h' = Err e).
  { apply reinit with (v := v).
    - apply R'.
    - destruct (rd_init _ _ _ _ _ R') as (Z & _). rewrite <- Z. apply R'.
    - pose proof (inv_le _ _ _ _ (rd_inv _ _ _ _ _ R')). lia. }
  split; [exact B|]. intros F1 F2. destruct B as (e & B). rewrite B. f_equal. revert e B.
  apply na_init; [split; congruence|congruence|congruence].
Qed.

(** the caller must not delete W: after the object is gone that is a double delete, before it makes the destructor one *)
Theorem C39_caller_deletes_W :
  forall k order s r h0 v w x bv bx steps,
    wf h0 -> live h0 v = Some bv -> live h0 w = Some Arr -> live h0 x = Some bx -> v <> w -> schedule steps ->
    (h <- life k order s r (At x) (mkTA (At v) (repeat s order)) (mkMA (At w) (repeat r order)) steps h0 ;; del Arr (At w) h) = Err UB.
Proof.
  intros k order s r h0 v w x bv bx steps WF Lv Lw Lx NE Sch.
  destruct (C39_lifecycle k order s r h0 v w x bv bx steps WF Lv Lw Lx NE Sch) as (h & lk & E & _ & L2 & L3).
  rewrite E. cbn [bind]. apply del_dead. destruct (live h w) as [b|] eqn:Eb; [|reflexivity]. apply L3 in Eb as [[_ A]|[A _]]; [congruence|].
  apply L2 in A. congruence.
Qed.

(** an object is not copyable: there is no copy constructor, a copy has the same pointers, and destroying both is undefined *)
Lemma na_dtor d h : noassert (cpd_dtor d h).
Proof.
  unfold cpd_dtor. apply na_bind; [apply na_del_if|]. intro. apply na_bind; [apply na_nonnull|]. intro b.
  apply na_bind.
  { destruct b; [|apply na_ok]. apply na_bind; [apply na_use|]. intros _. apply na_bind; [|intro; apply na_del].
    unfold opt_dtor. destruct (o_kind (d_optr d)); try apply na_ok; (apply na_bind; [apply na_del|]; intro; apply na_del). }
  intro. apply na_bind; [apply na_nonnull|]. intro. apply na_bind; [apply na_del_if|]. intro. apply na_bind; [apply na_del|]. intro. apply na_del.
Qed.
Theorem C39_copy_is_destroyed_twice : forall d h h', (exists i, d_size d = At i) ->   (* true of every constructed object *)
  cpd_dtor d h = Ok h' -> cpd_dtor d h' = Err UB.
Proof.
  intros d h h' (i & Ei) E.
  enough (X : exists e, cpd_dtor d h' = Err e) by (destruct X as (e & X); rewrite X; f_equal; exact (na_dtor _ _ _ X)).
  assert (D : live h' i = None).
  { unfold cpd_dtor in E.
    destruct (del_if Arr (d_grad d) h) as [h1|]; cbn [bind] in E; [|discriminate].
    destruct (nonnull (d_opt d)); cbn [bind] in E; [|discriminate].
    match type of E with bind ?x _ = _ => destruct x as [h2|]; cbn [bind] in E; [|discriminate] end.
    destruct (nonnull (d_V d)); cbn [bind] in E; [|discriminate].
    destruct (del_if Arr (d_W d) h2) as [h3|]; cbn [bind] in E; [|discriminate].
    rewrite Ei in E. destruct (del Arr (At i) h3) as [h4|] eqn:D; cbn [bind] in E; [|discriminate].
    apply del_ok_at in D as [D _]. exact (del_ok_live _ _ _ _ E i D). }
  unfold cpd_dtor.
  destruct (del_if Arr (d_grad d) h') as [h1|] eqn:D1; cbn [bind]; [|eexists; reflexivity].
  pose proof (del_if_ok_live _ _ _ _ D1 i D) as L1.
  destruct (nonnull (d_opt d)) as [b|]; cbn [bind]; [|eexists; reflexivity].
  match goal with |- context [bind ?x _] => destruct x as [h2|] eqn:D2; cbn [bind]; [|eexists; reflexivity] end.
  assert (L2 : live h2 i = None).
  { destruct b; [|congruence]. destruct (use (d_opt d) h1); cbn [bind] in D2; [|discriminate].
    destruct (opt_dtor (d_optr d) h1) as [h2'|] eqn:D3; cbn [bind] in D2; [|discriminate].
    eapply del_ok_live; [exact D2|]. unfold opt_dtor in D3. destruct (o_kind (d_optr d)); try congruence.
    - destruct (del One (o_c1 (d_optr d)) h1) eqn:D4; cbn [bind] in D3; [|discriminate]. eapply del_ok_live; [exact D3|]. eapply del_ok_live; eassumption.
    - destruct (del Arr (o_is_cached (d_optr d)) h1) eqn:D4; cbn [bind] in D3; [|discriminate]. eapply del_ok_live; [exact D3|]. eapply del_ok_live; eassumption. }
  destruct (nonnull (d_V d)); cbn [bind]; [|eexists; reflexivity].
  destruct (del_if Arr (d_W d) h2) as [h3|] eqn:D5; cbn [bind]; [|eexists; reflexivity].
  pose proof (del_if_ok_live _ _ _ _ D5 i L2) as L3.
  rewrite Ei. rewrite del_dead by exact L3. eexists; reflexivity.
Qed.

(** a step before Init dereferences a null pointer *)
Theorem C39_step_before_init : forall k order s r x h0 first lowrank, wf h0 ->
  (let '(d, h) := cpd_ctor k order s r x h0 in cpd_step first lowrank d h) = Err UB.
Proof.
  intros k order s r x h0 first lowrank WF. destruct k; unfold cpd_ctor, cpd_step, alloc; cbn -[Nat.eqb];
  rewrite ?Nat.eqb_refl; repeat match goal with |- context [?a =? ?b] => destruct (Nat.eqb_spec a b); cbn -[Nat.eqb]; try lia end; reflexivity.
Qed.

(** the constructor with arrays of sizes and ranks always writes through an uninitialised pointer *)
Theorem C39_array_constructor : forall k order sizes ranks x h, cpd_ctor_arrays k order sizes ranks x h = Err UB.
Proof. reflexivity. Qed.

(** ** Cases *)
(** the block of run.cxx:383-415: the tensor and the World are local objects, W is allocated with new[] *)
Definition ex_heap : heap := mkHeap (fun i => match i with 0 => Some Stk | 1 => Some Stk | 2 => Some Arr | _ => None end) 3.
Lemma ex_wf : wf ex_heap.
Proof. intros i Hi. cbn in *. destruct i as [|[|[|i]]]; cbn in *; try lia; reflexivity. Qed.
Definition show (n : nat) (h : heap) : list (option block) := map (live h) (seq 0 n).
Theorem C39_case_run :
  (h <- life KMSDT 4 8 5 (At 1) (mkTA (At 0) [8; 8; 8; 8]) (mkMA (At 2) [5; 5; 5; 5]) [(true, false); (false, false)] ex_heap ;; Ok (show 12 h))
    = Ok [Some Stk; Some Stk; None; None; None; None; None; None; None; None; None; None].
Proof. reflexivity. Qed.
(** with the multi-sweep low-rank optimizer block 8 (old_W) remains *)
Theorem C39_case_leak :
  (h <- life KMSDTLR 4 8 5 (At 1) (mkTA (At 0) [8; 8; 8; 8]) (mkMA (At 2) [5; 5; 5; 5]) [(true, false)] ex_heap ;; Ok (show 12 h))
    = Ok [Some Stk; Some Stk; None; None; None; None; None; None; Some Arr; None; None; None].
Proof. reflexivity. Qed.
Theorem C39_case_dtlr :
  (h <- life KDTLR 4 8 5 (At 1) (mkTA (At 0) [8; 8; 8; 8]) (mkMA (At 2) [5; 5; 5; 5]) (dl_schedule true 0 false (repeat true 14)) ex_heap ;; Ok (show 12 h))
    = Ok [Some Stk; Some Stk; None; None; None; None; None; None; None; None; None; None].
Proof. reflexivity. Qed.
Theorem C39_case_schedule : dl_schedule true 0 false (repeat true 7) =
  [(true, false); (false, false); (true, false); (false, false); (true, true); (false, true); (true, true)].
Proof. reflexivity. Qed.
