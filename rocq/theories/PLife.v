(** Proofs about the storage model MLife.v. *)
From Coq Require Import List ZArith Lia Bool Arith.
From Verif Require Import Base MLife.
Import ListNotations.

Lemma del_at k i h : live h i = Some k ->
  del k (At i) h = Ok (mkHeap (fun j => if j =? i then None else live h j) (next h)).
Proof. intro E. cbn. rewrite E. destruct k; reflexivity. Qed.
Lemma del_dead k i h : live h i = None -> del k (At i) h = Err UB.
Proof. intro E. cbn. now rewrite E. Qed.
Lemma use_at i h k : live h i = Some k -> use (At i) h = Ok tt.
Proof. intro E. cbn. now rewrite E. Qed.

Fixpoint dels (l : list (block * ptr)) (h : heap) : res heap :=
  match l with [] => Ok h | (k, p) :: l => h <- del k p h ;; dels l h end.
Fixpoint ids (l : list (block * ptr)) : list nat :=
  match l with [] => [] | (_, At i) :: l => i :: ids l | _ :: l => ids l end.
Definition mem (j : nat) (l : list nat) : bool := existsb (Nat.eqb j) l.
Lemma mem_in j l : mem j l = true <-> In j l.
Proof. unfold mem. rewrite existsb_exists. split; [intros (x & H & E); apply Nat.eqb_eq in E; now subst | intro; exists j; now rewrite Nat.eqb_refl]. Qed.

Definition okp (h : heap) (x : block * ptr) : Prop :=
  match snd x with Null => True | Uninit => False | At i => live h i = Some (fst x) end.
Lemma dels_ok : forall l h, NoDup (ids l) -> Forall (okp h) l ->
  exists h', dels l h = Ok h' /\ next h' = next h /\ (forall j, live h' j = if mem j (ids l) then None else live h j).
Proof.
  induction l as [|(k, p) l IH]; intros h ND F; cbn.
  - exists h. auto.
  - inversion F as [|x y Ok1 F']; subst. destruct p as [| |i]; cbn in Ok1.
    + cbn. apply IH; auto.
    + destruct Ok1.
    + fold (del k (At i) h). rewrite del_at by exact Ok1. cbn. cbn in ND. apply NoDup_cons_iff in ND as [NI ND].
      destruct (IH (mkHeap (fun j => if j =? i then None else live h j) (next h)) ND) as (h' & E & En & El).
      { rewrite Forall_forall in *. intros (k', p') Hin. specialize (F' _ Hin). unfold okp in *. cbn in *.
        destruct p' as [| |i']; auto. destruct (i' =? i) eqn:Ei; [|exact F']. apply Nat.eqb_eq in Ei. subst i'.
        exfalso. apply NI. clear - Hin. induction l as [|(a, b) l IHl]; [destruct Hin|]. destruct Hin as [E|Hin].
        - inversion E; subst. cbn. now left.
        - cbn. destruct b; try (apply IHl; exact Hin). right. now apply IHl. }
      exists h'. split; [exact E|]. split; [exact En|]. intro j. rewrite El. cbn. unfold mem. cbn.
      destruct (j =? i); cbn; [|reflexivity]. destruct (existsb _ _); reflexivity.
Qed.

(** the blocks the destructor releases, in order *)
Definition owned (d : cpd) : list (block * ptr) :=
  (Arr, d_grad d) ::
  (match o_kind (d_optr d) with
   | KDTLR => [(One, o_c1 (d_optr d)); (One, o_c2 (d_optr d))]
   | KMSDTLR => [(Arr, o_is_cached (d_optr d)); (Arr, o_tensors (d_optr d))]
   | _ => [] end) ++
  [(One, d_opt d); (Arr, d_W d); (Arr, d_size d); (Arr, d_rank d)].

Lemma del_if_del k p h : p <> Uninit -> del_if k p h = del k p h.
Proof. destruct p; intro H; [reflexivity|congruence|reflexivity]. Qed.

Lemma dels_app l1 : forall l2 h, dels (l1 ++ l2) h = bind (dels l1 h) (dels l2).
Proof. induction l1 as [|(k, p) l1 IH]; intros l2 h; cbn; [reflexivity|]. destruct (del k p h); cbn; [apply IH|reflexivity]. Qed.

Lemma dtor_dels d h :
  NoDup (ids (owned d)) -> Forall (okp h) (owned d) -> d_V d <> Uninit -> d_opt d <> Null ->
  cpd_dtor d h = dels (owned d) h.
Proof.
  intros ND F HV HO.
  assert (F0 := F). unfold owned in F. inversion F as [|x y F1 F2]; subst. apply Forall_app in F2 as [F2 F3].
  inversion F3 as [|x y F4 F5]; subst. inversion F5 as [|x y F6 F7]; subst.
  unfold okp in F1, F4, F6; cbn in F1, F4, F6.
  destruct (d_opt d) as [| |op] eqn:Eop; [congruence|destruct F4|].
  unfold cpd_dtor, owned. rewrite Eop. cbn [nonnull bind].
  rewrite del_if_del by (intro X; rewrite X in F1; exact F1).
  cbn [dels app]. rewrite ?Eop.
  assert (U : forall h1, dels [(Arr, d_grad d)] h = Ok h1 -> use (At op) h1 = Ok tt).
  { intros h1 E1.
    assert (ND1 : NoDup (ids [(Arr, d_grad d)])) by (destruct (d_grad d); repeat constructor; intros []).
    destruct (dels_ok _ h ND1 (Forall_cons (Arr, d_grad d) F1 (Forall_nil _))) as (h1' & E1' & _ & L1).
    rewrite E1 in E1'. injection E1' as <-.
    apply use_at with (k := One). rewrite L1. destruct (mem op (ids [(Arr, d_grad d)])) eqn:M; [|exact F4].
    exfalso. apply mem_in in M. destruct (d_grad d) as [| |g] eqn:Eg; cbn in M; try contradiction.
    destruct M as [<-|[]]. rewrite F1 in F4. discriminate. }
  cbn [dels] in U.
  destruct (del Arr (d_grad d) h) as [h1|e] eqn:E1; cbn [bind]; [|reflexivity].
  cbn [bind] in U. rewrite (U h1 eq_refl). cbn [bind].
  assert (HW : d_W d <> Uninit) by (intro X; rewrite X in F6; exact F6).
  assert (X : forall h2, (h3 <- del One (At op) h2 ;; _ <- nonnull (d_V d) ;; h4 <- del_if Arr (d_W d) h3 ;; h5 <- del Arr (d_size d) h4 ;; del Arr (d_rank d) h5)
              = dels [(One, At op); (Arr, d_W d); (Arr, d_size d); (Arr, d_rank d)] h2).
  { intro h2. cbn [dels]. destruct (del One (At op) h2) as [h3|]; cbn [bind]; [|reflexivity].
    replace (nonnull (d_V d)) with (Ok (match d_V d with Null => false | _ => true end)) by (destruct (d_V d); [reflexivity|congruence|reflexivity]).
    cbn [bind]. rewrite del_if_del by exact HW. destruct (del Arr (d_W d) h3) as [h4|]; cbn [bind]; [|reflexivity].
    destruct (del Arr (d_size d) h4) as [h5|]; cbn [bind]; [|reflexivity]. destruct (del Arr (d_rank d) h5); reflexivity. }
  unfold opt_dtor. destruct (o_kind (d_optr d)); cbn [app].
  all: try (cbn [bind]; rewrite <- X; reflexivity).
  - change ((One, o_c1 (d_optr d)) :: (One, o_c2 (d_optr d)) :: [(One, At op); (Arr, d_W d); (Arr, d_size d); (Arr, d_rank d)])
      with ([(One, o_c1 (d_optr d)); (One, o_c2 (d_optr d))] ++ [(One, At op); (Arr, d_W d); (Arr, d_size d); (Arr, d_rank d)]).
    rewrite dels_app. cbn [dels]. destruct (del One (o_c1 (d_optr d)) h1) as [h2|]; cbn [bind]; [|reflexivity].
    destruct (del One (o_c2 (d_optr d)) h2) as [h3|]; cbn [bind]; [|reflexivity]. apply X.
  - change ((Arr, o_is_cached (d_optr d)) :: (Arr, o_tensors (d_optr d)) :: [(One, At op); (Arr, d_W d); (Arr, d_size d); (Arr, d_rank d)])
      with ([(Arr, o_is_cached (d_optr d)); (Arr, o_tensors (d_optr d))] ++ [(One, At op); (Arr, d_W d); (Arr, d_size d); (Arr, d_rank d)]).
    rewrite dels_app. cbn [dels]. destruct (del Arr (o_is_cached (d_optr d)) h1) as [h2|]; cbn [bind]; [|reflexivity].
    destruct (del Arr (o_tensors (d_optr d)) h2) as [h3|]; cbn [bind]; [|reflexivity]. apply X.
Qed.

(** ** The invariant of an object made on top of the heap [h0]; [ow] is the caller's array it has taken over *)
Definition leaked (d : cpd) : list (block * ptr) :=
  match o_kind (d_optr d) with KMSDTLR => [(Arr, o_oldW (d_optr d))] | _ => [] end.
Record Inv (h0 : heap) (ow : option nat) (d : cpd) (h : heap) : Prop := {
  inv_nd : NoDup (ids (owned d ++ leaked d));
  inv_ok : Forall (okp h) (owned d ++ leaked d);
  inv_all : forall i, next h0 <= i -> live h i <> None -> In i (ids (owned d ++ leaked d));
  inv_old : forall i, i < next h0 -> live h i = live h0 i;
  inv_W : d_W d = match ow with Some w => At w | None => Null end;
  inv_new : forall i, In i (ids (owned d ++ leaked d)) -> ow = Some i \/ next h0 <= i;
  inv_V : d_V d <> Uninit;
  inv_opt : d_opt d <> Null;
  inv_next : forall i, next h <= i -> live h i = None;
  inv_le : next h0 <= next h }.

Definition wf (h : heap) := forall i, next h <= i -> live h i = None.

Lemma ids_app a b : ids (a ++ b) = ids a ++ ids b.
Proof. induction a as [|(k, p) a IH]; cbn; [reflexivity|]. destruct p; cbn; now rewrite IH. Qed.
Lemma ids_in k i l : In (k, At i) l -> In i (ids l).
Proof. induction l as [|(a, b) l IH]; cbn; [tauto|]. intros [E|H]; [inversion E; now left|]. destruct b; cbn; auto. Qed.

Lemma nodup_app_l {A} (a b : list A) : NoDup (a ++ b) -> NoDup a.
Proof. induction a as [|x a IH]; cbn; [constructor|]. intro H. apply NoDup_cons_iff in H as [NI H]. constructor; [|auto]. intro X. apply NI, in_or_app. now left. Qed.

Definition leaks (k : okind) : nat := match k with KMSDTLR => 1 | _ => 0 end.

Lemma leaked_len h d : Forall (okp h) (leaked d) -> match o_kind (d_optr d) with KMSDTLR => o_oldW (d_optr d) <> Null | _ => True end ->
  length (ids (leaked d)) = leaks (o_kind (d_optr d)) /\ (forall i, In i (ids (leaked d)) -> live h i = Some Arr).
Proof.
  unfold leaked. destruct (o_kind (d_optr d)); cbn; try (intros; split; [reflexivity|intros ? []]).
  intros F NN. inversion F as [|x y F1 _]; subst. unfold okp in F1; cbn in F1.
  destruct (o_oldW (d_optr d)); [congruence|destruct F1|]. cbn. split; [reflexivity|]. intros ? [<-|[]]. exact F1.
Qed.

Lemma dtor_ok h0 ow d h : Inv h0 ow d h ->
  match o_kind (d_optr d) with KMSDTLR => o_oldW (d_optr d) <> Null | _ => True end ->
  (forall w, ow = Some w -> w < next h0) -> wf h0 ->
  exists h', cpd_dtor d h = Ok h' /\ next h' = next h /\
    exists lk, length lk = leaks (o_kind (d_optr d)) /\ (forall j, In j lk -> live h0 j = None) /\
      (forall j b, live h' j = Some b <-> (live h0 j = Some b /\ ow <> Some j) \/ (In j lk /\ b = Arr)).
Proof.
  intros I NN Hw WF.
  destruct (dels_ok (owned d) h) as (h' & E & En & L).
  { apply (nodup_app_l _ (ids (leaked d))). rewrite <- ids_app. apply I. }
  { pose proof (inv_ok _ _ _ _ I) as F. apply Forall_app in F. apply F. }
  exists h'. split; [|split; [exact En|]].
  { rewrite dtor_dels; [exact E| | |apply I|apply I].
    - apply (nodup_app_l _ (ids (leaked d))). rewrite <- ids_app. apply I.
    - pose proof (inv_ok _ _ _ _ I) as F. apply Forall_app in F. apply F. }
  pose proof (inv_ok _ _ _ _ I) as F. apply Forall_app in F as [F1 F2].
  destruct (leaked_len h d F2 NN) as [LL LV].
  pose proof (inv_nd _ _ _ _ I) as ND. pose proof (inv_all _ _ _ _ I) as A. pose proof (inv_new _ _ _ _ I) as Nw.
  rewrite ids_app in ND, A, Nw.
  exists (ids (leaked d)). split; [exact LL|].
  assert (Dis : forall j, In j (ids (owned d)) -> In j (ids (leaked d)) -> False).
  { intros j H1 H2. clear - ND H1 H2. induction (ids (owned d)) as [|x l IH]; [destruct H1|].
    cbn in ND. apply NoDup_cons_iff in ND as [NI ND]. destruct H1 as [<-|H1]; [apply NI, in_or_app; now right|auto]. }
  assert (WI : forall w, ow = Some w -> In w (ids (owned d))).
  { intros w Ew. apply (ids_in Arr). pose proof (inv_W _ _ _ _ I) as EW. rewrite Ew in EW. unfold owned.
    right. apply in_or_app. right. right. left. now rewrite EW. }
  split.
  { intros j Hj. apply WF. destruct (Nw j) as [X|X]; [apply in_or_app; now right| |exact X].
    exfalso. apply (Dis j); auto. }
  intros j b. rewrite L. destruct (mem j (ids (owned d))) eqn:M.
  - apply mem_in in M. split; [discriminate|]. intros [[H1 H2]|[H1 _]]; [|exfalso; eauto].
    exfalso. destruct (Nw j) as [X|X]; [apply in_or_app; now left|congruence|]. rewrite (WF j X) in H1. discriminate.
  - assert (NM : ~ In j (ids (owned d))) by (rewrite <- mem_in, M; discriminate). split.
    + intro H. destruct (le_lt_dec (next h0) j) as [Hj|Hj].
      * right. assert (In j (ids (owned d) ++ ids (leaked d))) as X by (apply A; [exact Hj|congruence]).
        apply in_app_or in X as [X|X]; [contradiction|]. split; [exact X|]. rewrite (LV _ X) in H. congruence.
      * left. rewrite (inv_old _ _ _ _ I j Hj) in H. split; [exact H|]. intro Ej. apply NM, WI, Ej.
    + intros [[H1 H2]|[H1 ->]]; [|auto]. rewrite (inv_old _ _ _ _ I j); [exact H1|].
      destruct (le_lt_dec (next h0) j) as [X|X]; [|exact X]. rewrite (WF j X) in H1. discriminate.
Qed.

(** ** The constructor *)
Lemma eqb_ne a b : a <> b -> (a =? b) = false. Proof. apply Nat.eqb_neq. Qed.

Lemma ctor_inv k order s r world h0 : wf h0 ->
  Inv h0 None (fst (cpd_ctor k order s r world h0)) (snd (cpd_ctor k order s r world h0)).
Proof.
  intro WF. unfold wf in WF.
  destruct k; cbn -[Nat.eqb];
    (constructor; cbn -[Nat.eqb];
     [ repeat constructor; cbn; intuition lia
     | repeat constructor; unfold okp; cbn -[Nat.eqb]; rewrite ?Nat.eqb_refl, ?eqb_ne by lia; reflexivity
     | intros i Hi; repeat (match goal with |- context [if ?a =? ?b then _ else _] => destruct (Nat.eqb_spec a b); [subst; intros _; cbn; tauto|] end);
       rewrite WF by lia; congruence
     | intros i Hi; rewrite ?eqb_ne by lia; reflexivity
     | reflexivity
     | intros i Hi; right; cbn in Hi; intuition lia
     | discriminate | discriminate
     | intros i Hi; rewrite ?eqb_ne by lia; apply WF; lia
     | lia ]).
Qed.

(** ** Init *)
Lemma loop_ok (body : nat -> res unit) : forall n i, (forall j, i <= j < i + n -> body j = Ok tt) ->
  loop n i (fun j _ => body j) tt = Ok tt.
Proof. induction n as [|n IH]; intros i H; cbn; [reflexivity|]. rewrite H by lia. cbn. apply IH. intros j Hj. apply H. lia. Qed.

Lemma nth_repeat_err {A} (x : A) n i : i < n -> nth_error (repeat x n) i = Some x.
Proof. revert i; induction n as [|n IH]; intros [|i] H; cbn; try lia; [reflexivity|]. apply IH. lia. Qed.

(** the arguments the assertions accept *)
Definition fits (d : cpd) (V : tensor_arg) (W : mats_arg) : Prop :=
  t_lens V = repeat (d_sz d) (d_order d) /\ m_ncols W = repeat (d_rk d) (d_order d).

Definition initd (d : cpd) : Prop :=
  d_V d = o_V (d_optr d) /\ d_W d = o_W (d_optr d) /\ d_grad d = o_grad (d_optr d) /\
  (exists g, d_grad d = At g) /\ (exists o, d_opt d = At o).

Record Ready (h0 : heap) (v w : nat) (d : cpd) (h : heap) : Prop := {
  rd_inv : Inv h0 (Some w) d h;
  rd_init : initd d;
  rd_V : d_V d = At v;
  rd_old : match o_kind (d_optr d) with KMSDTLR => o_oldW (d_optr d) <> Null /\ o_is_cached (d_optr d) <> Null /\ o_tensors (d_optr d) <> Null | _ => True end }.

Lemma live_lt h i b : wf h -> live h i = Some b -> i < next h.
Proof. intros WF H. destruct (le_lt_dec (next h) i) as [X|X]; [|exact X]. rewrite (WF i X) in H. discriminate. Qed.

Lemma del_if_null k h : del_if k Null h = Ok h. Proof. reflexivity. Qed.

Lemma init_ready k order s r h0 v w x bv bx lens ncols :
  wf h0 -> live h0 v = Some bv -> live h0 w = Some Arr -> live h0 x = Some bx -> v <> w ->
  lens = repeat s order -> ncols = repeat r order ->
  exists d h, (let '(d1, h1) := cpd_ctor k order s r (At x) h0 in cpd_Init d1 (mkTA (At v) lens) (mkMA (At w) ncols) h1) = Ok (d, h) /\
    Ready h0 v w d h /\ o_kind (d_optr d) = k /\
    d_order d = order /\ d_sz d = s /\ d_rk d = r /\ o_order (d_optr d) = order /\ o_rank (d_optr d) = r /\
    (k = KDTLR -> o_c1 (d_optr d) = Null /\ o_c2 (d_optr d) = Null).
Proof.
  intros WF Lv Lw Lx NE -> ->.
  pose proof (live_lt _ _ _ WF Lv) as Bv. pose proof (live_lt _ _ _ WF Lw) as Bw. pose proof (live_lt _ _ _ WF Lx) as Bx.
  pose proof (ctor_inv k order s r (At x) h0 WF) as I.
  destruct (cpd_ctor k order s r (At x) h0) as (d1, h1) eqn:EC. cbn [fst snd] in I.
  assert (E1 : d_order d1 = order /\ d_sz d1 = s /\ d_rk d1 = r /\ d_V d1 = Null /\ d_W d1 = Null /\ d_grad d1 = Null /\ d_world d1 = At x /\
    o_order (d_optr d1) = order /\ o_rank (d_optr d1) = r /\ o_V (d_optr d1) = Null /\ o_W (d_optr d1) = Null /\ o_grad (d_optr d1) = Null /\ o_kind (d_optr d1) = k /\
    (exists i, d_size d1 = At i) /\ (exists i, d_rank d1 = At i) /\ (exists i, d_opt d1 = At i) /\
    (k = KDTLR -> o_c1 (d_optr d1) = Null /\ o_c2 (d_optr d1) = Null) /\
    match k with KMSDTLR => o_oldW (d_optr d1) <> Null /\ o_is_cached (d_optr d1) <> Null /\ o_tensors (d_optr d1) <> Null | _ => True end).
  { destruct k; cbn in EC; injection EC as <- <-; cbn; repeat split; eauto; try congruence. }
  destruct E1 as (Eo & Es & Er & EV & EW & Eg & Ex & Eoo & Eor & EoV & EoW & Eog & Ek & (i1 & Ei1) & (i2 & Ei2) & (i3 & Ei3) & Ec & Em).
  pose proof (inv_ok _ _ _ _ I) as F. apply Forall_app in F as [F F']. pose proof F as FO. unfold owned in F. inversion F as [|? ? _ F2]; subst.
  apply Forall_app in F2 as [_ F2]. inversion F2 as [|? ? Fop F3]; subst. inversion F3 as [|? ? _ F4]; subst.
  inversion F4 as [|? ? Fs F5]; subst. inversion F5 as [|? ? Fr _]; subst.
  unfold okp in Fop, Fs, Fr. cbn in Fop, Fs, Fr. rewrite Ei3 in Fop. rewrite Ei1 in Fs. rewrite Ei2 in Fr.
  assert (Lv1 : live h1 v = Some bv) by (rewrite (inv_old _ _ _ _ I v Bv); exact Lv).
  assert (Lw1 : live h1 w = Some Arr) by (rewrite (inv_old _ _ _ _ I w Bw); exact Lw).
  assert (Lx1 : live h1 x = Some bx) by (rewrite (inv_old _ _ _ _ I x Bx); exact Lx).
  pose proof (inv_le _ _ _ _ I) as Le.
  set (h2 := snd (alloc Arr h1)).
  assert (AL : forall i b, live h1 i = Some b -> live h2 i = Some b).
  { intros i b Hi. unfold h2, alloc; cbn. destruct (Nat.eqb_spec i (next h1)) as [->|]; [|exact Hi].
    rewrite (inv_next _ _ _ _ I) in Hi by lia. discriminate. }
  assert (EQ : cpd_Init d1 (mkTA (At v) (repeat (d_sz d1) (d_order d1))) (mkMA (At w) (repeat (d_rk d1) (d_order d1))) h1 =
    Ok (mkCpd (d_order d1) (d_sz d1) (d_rk d1) (At v) (At w) (d_size d1) (d_rank d1) (d_world d1) (At (next h1)) (d_opt d1)
         (mkOpt (o_kind (d_optr d1)) (o_order (d_optr d1)) (o_rank (d_optr d1)) (At v) (At w) (At (next h1)) (o_c1 (d_optr d1)) (o_c2 (d_optr d1)) (o_is_cached (d_optr d1)) (o_tensors (d_optr d1)) (o_oldW (d_optr d1))), h2)).
  { unfold cpd_Init, decomp_Init. cbn [t_ptr t_lens m_ptr m_ncols].
    rewrite (use_at v h1 _ Lv1). cbn [bind]. rewrite repeat_length, Nat.eqb_refl. cbn [check bind].
    unfold for_. rewrite Nat.sub_0_r. rewrite loop_ok.
    2:{ intros j Hj. unfold lget. rewrite !nth_repeat_err by lia. cbn [of_opt bind]. rewrite Ei1, (use_at _ _ _ Fs). cbn [bind].
        rewrite Nat.eqb_refl. cbn [check bind]. rewrite (use_at w h1 _ Lw1). cbn [bind]. rewrite Ei2, (use_at _ _ _ Fr). cbn [bind].
        rewrite Nat.eqb_refl. reflexivity. }
    cbn [bind]. rewrite EV, del_if_null. cbn [bind nonnull]. rewrite EW. cbn [del bind]. cbn [d_grad d_size d_rank d_world d_opt d_optr d_order d_sz d_rk d_V d_W].
    rewrite Eg, del_if_null. cbn [bind]. change (alloc Arr h1) with (At (next h1), h2). cbv iota beta.
    rewrite Ei1, (use_at _ _ _ (AL _ _ Fs)), Ei2, (use_at _ _ _ (AL _ _ Fr)), Ex, (use_at _ _ _ (AL _ _ Lx1)), Ei3, (use_at _ _ _ (AL _ _ Fop)).
    cbn [bind]. unfold configure. cbn [t_ptr t_lens m_ptr m_ncols].
    rewrite (use_at _ _ _ (AL _ _ Lv1)). cbn [bind]. rewrite repeat_length, Eoo, Nat.eqb_refl. cbn [check bind].
    unfold for_. rewrite Nat.sub_0_r. rewrite loop_ok.
    2:{ intros j Hj. rewrite (use_at _ _ _ (AL _ _ Lw1)). cbn [bind]. unfold lget. rewrite nth_repeat_err by lia. cbn [of_opt bind].
        rewrite Eor, Nat.eqb_refl. reflexivity. }
    cbn [bind]. rewrite EoV, EoW, Eog. do 3 (rewrite del_if_null; cbn [bind]). rewrite (use_at _ _ _ (AL _ _ Lw1)). cbn [bind]. reflexivity. }
  rewrite EQ. eexists _, _. split; [reflexivity|]. cbn [d_optr o_kind d_order d_sz d_rk o_order o_rank o_c1 o_c2].
  split; [|repeat split; auto; apply Ec; auto].
  constructor.
  - assert (IE : forall i, In i (ids (owned (mkCpd (d_order d1) (d_sz d1) (d_rk d1) (At v) (At w) (d_size d1) (d_rank d1) (d_world d1) (At (next h1)) (d_opt d1)
         (mkOpt (o_kind (d_optr d1)) (d_order d1) (d_rk d1) (At v) (At w) (At (next h1)) (o_c1 (d_optr d1)) (o_c2 (d_optr d1)) (o_is_cached (d_optr d1)) (o_tensors (d_optr d1)) (o_oldW (d_optr d1)))) ++ leaked d1))
        <-> i = next h1 \/ i = w \/ In i (ids (owned d1 ++ leaked d1))).
    { intro i. unfold owned. cbn [d_grad d_optr o_kind o_c1 o_c2 o_is_cached o_tensors d_opt d_W d_size d_rank]. rewrite Eg, EW.
      cbn [app ids]. rewrite !ids_app. cbn [ids]. rewrite Ei1, Ei2, Ei3. cbn [ids app].
      cbn [In]. rewrite !in_app_iff. cbn [In]. intuition lia. }
    pose proof (inv_nd _ _ _ _ I) as ND. pose proof (inv_new _ _ _ _ I) as Nw. pose proof (inv_all _ _ _ _ I) as Al.
    assert (NW : ~ In w (ids (owned d1 ++ leaked d1))) by (intro X; apply Nw in X as [X|X]; [discriminate|lia]).
    assert (NG : ~ In (next h1) (ids (owned d1 ++ leaked d1))).
    { intro X. assert (live h1 (next h1) <> None) as Y.
      { clear - X I. pose proof (inv_ok _ _ _ _ I) as F. induction (owned d1 ++ leaked d1) as [|(a, b) l IH]; [destruct X|].
        inversion F as [|? ? F1 F2]; subst. cbn in X. destruct b; auto. destruct X as [<-|X]; auto.
        unfold okp in F1. cbn in F1. congruence. }
      apply Y, (inv_next _ _ _ _ I). lia. }
    constructor.
    + change (leaked (mkCpd _ _ _ _ _ _ _ _ _ _ _)) with (leaked d1).
      unfold owned in *. cbn [d_grad d_optr o_kind o_c1 o_c2 o_is_cached o_tensors d_opt d_W d_size d_rank] in *. rewrite Eg, EW in *.
      rewrite Ei1, Ei2, Ei3 in *. cbn [app ids] in *. rewrite !ids_app in *. cbn [ids app] in *.
      set (A := ids (match o_kind (d_optr d1) with KDTLR => _ | KMSDTLR => _ | _ => _ end)) in *.
      set (B := ids (leaked d1)) in *. rewrite <- !app_assoc in *. cbn [app] in *.
      constructor.
      { intro X. apply NG. apply in_app_iff in X. apply in_app_iff. destruct X as [X|X]; [now left|]. right. cbn in X |- *.
        destruct X as [X|[X|X]]; auto. exfalso. lia. }
      change (A ++ i3 :: w :: i1 :: i2 :: B) with (A ++ [i3] ++ w :: i1 :: i2 :: B) in *. rewrite app_assoc in *.
      change (A ++ i3 :: i1 :: i2 :: B) with (A ++ [i3] ++ i1 :: i2 :: B) in *. rewrite app_assoc in *.
      apply NoDup_Add with (a := w) (l := (A ++ [i3]) ++ i1 :: i2 :: B); [apply Add_app|]. split; assumption.
    + change (leaked (mkCpd _ _ _ _ _ _ _ _ _ _ _)) with (leaked d1). rewrite Forall_forall. intros (kk, p) Hin.
      assert (K : okp h1 (kk, p) \/ (kk, p) = (Arr, At (next h1)) \/ (kk, p) = (Arr, At w)).
      { pose proof (inv_ok _ _ _ _ I) as G. rewrite Forall_forall in G.
        unfold owned in Hin, G. cbn [d_grad d_optr o_kind o_c1 o_c2 o_is_cached o_tensors d_opt d_W d_size d_rank] in Hin.
        apply in_app_iff in Hin. destruct Hin as [Hin|Hin]; [|left; apply G; apply in_app_iff; now right].
        destruct Hin as [Hin|Hin]; [right; left; congruence|]. apply in_app_iff in Hin. destruct Hin as [Hin|Hin].
        - left. apply G. apply in_app_iff. left. right. apply in_app_iff. now left.
        - destruct Hin as [Hin|[Hin|Hin]].
          + left. apply G. apply in_app_iff. left. right. apply in_app_iff. right. now left.
          + right. right. congruence.
          + left. apply G. apply in_app_iff. left. right. apply in_app_iff. right. right. now right. }
      destruct K as [K|[K|K]].
      * unfold okp in *. cbn in *. destruct p; auto.
      * injection K as -> ->. unfold okp, h2, alloc; cbn. now rewrite Nat.eqb_refl.
      * injection K as -> ->. unfold okp; cbn. change (live h2 w = Some Arr). apply AL, Lw1.
    + intros i Hi HL. change (leaked (mkCpd _ _ _ _ _ _ _ _ _ _ _)) with (leaked d1). apply IE.
      unfold h2, alloc in HL; cbn in HL. destruct (Nat.eqb_spec i (next h1)); [auto|]. right. right. now apply Al.
    + intros i Hi. unfold h2, alloc; cbn. rewrite eqb_ne by lia. apply (inv_old _ _ _ _ I). exact Hi.
    + reflexivity.
    + intros i Hi. change (leaked (mkCpd _ _ _ _ _ _ _ _ _ _ _)) with (leaked d1) in Hi. apply IE in Hi.
      destruct Hi as [->|[->|Hi]]; [right; lia|now left|]. right. apply Nw in Hi as [X|X]; [discriminate|exact X].
    + discriminate.
    + cbn. rewrite Ei3. discriminate.
    + intros i Hi. unfold h2, alloc in *; cbn in *. rewrite eqb_ne by lia. apply (inv_next _ _ _ _ I). lia.
    + unfold h2, alloc; cbn. lia.
  - unfold initd; cbn. repeat split; eauto.
  - reflexivity.
  - cbn. exact Em.
Qed.
