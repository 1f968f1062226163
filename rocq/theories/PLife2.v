(** Optimizer steps, second Init and copies. *)
From Coq Require Import List ZArith Lia Bool Arith.
From Verif Require Import Base MLife PLife.
Import ListNotations.

Lemma okp_at h k p l : Forall (okp h) l -> In (k, p) l -> p <> Null -> exists i, p = At i /\ live h i = Some k.
Proof. intros F Hi NN. rewrite Forall_forall in F. specialize (F _ Hi). unfold okp in F; cbn in F. destruct p; [congruence|destruct F|eauto]. Qed.

Lemma ready_live h0 v w bv d h : wf h0 -> live h0 v = Some bv -> v <> w -> w < next h0 -> Ready h0 v w d h ->
  use (d_opt d) h = Ok tt /\ use (o_V (d_optr d)) h = Ok tt /\ use (o_W (d_optr d)) h = Ok tt /\ use (o_grad (d_optr d)) h = Ok tt.
Proof.
  intros WF Lv NE Bw R. pose proof (rd_inv _ _ _ _ _ R) as I. pose proof (live_lt _ _ _ WF Lv) as Bv.
  pose proof (inv_ok _ _ _ _ I) as F. apply Forall_app in F as [F _].
  destruct (rd_init _ _ _ _ _ R) as (EV & EW & EG & (g & Eg) & (o & Eo)).
  split; [|split; [|split]].
  - rewrite Eo. destruct (okp_at h One (d_opt d) _ F) as (i & Ei & Li); [|rewrite Eo; discriminate|].
    + right. apply in_or_app. right. now left.
    + rewrite Eo in Ei. injection Ei as ->. apply (use_at _ _ _ Li).
  - rewrite <- EV, (rd_V _ _ _ _ _ R). apply (use_at v h bv). rewrite (inv_old _ _ _ _ I v Bv). exact Lv.
  - rewrite <- EW. destruct (okp_at h Arr (d_W d) _ F) as (i & Ei & Li).
    + right. apply in_or_app. right. right. now left.
    + rewrite (inv_W _ _ _ _ I). discriminate.
    + rewrite Ei. apply (use_at _ _ _ Li).
  - rewrite <- EG. destruct (okp_at h Arr (d_grad d) _ F) as (i & Ei & Li).
    + now left.
    + rewrite Eg. discriminate.
    + rewrite Ei. apply (use_at _ _ _ Li).
Qed.

(** replacing a null cache pointer by a fresh block *)
Lemma alloc_live h k i b : wf h -> live h i = Some b -> live (snd (alloc k h)) i = Some b.
Proof. intros WF Hi. cbn. destruct (Nat.eqb_spec i (next h)) as [->|]; [|exact Hi]. rewrite WF in Hi by lia. discriminate. Qed.

Definition with_c (d : cpd) (c1 c2 : ptr) : cpd :=
  let o := d_optr d in
  mkCpd (d_order d) (d_sz d) (d_rk d) (d_V d) (d_W d) (d_size d) (d_rank d) (d_world d) (d_grad d) (d_opt d)
    (mkOpt (o_kind o) (o_order o) (o_rank o) (o_V o) (o_W o) (o_grad o) c1 c2 (o_is_cached o) (o_tensors o) (o_oldW o)).

Lemma ids_at_in i l : In i (ids l) -> exists k, In (k, At i) l.
Proof.
  induction l as [|(k, p) l IH]; cbn; [tauto|]. destruct p; cbn.
  1,2: intro H; destruct (IH H) as (k' & H'); eauto.
  intros [->|H]; [eauto|destruct (IH H) as (k' & H'); eauto].
Qed.

Lemma ready_cache (b : bool) h0 v w d h : Ready h0 v w d h -> wf h -> o_kind (d_optr d) = KDTLR ->
  (if b then o_c1 (d_optr d) else o_c2 (d_optr d)) = Null ->
  Ready h0 v w (with_c d (if b then At (next h) else o_c1 (d_optr d)) (if b then o_c2 (d_optr d) else At (next h))) (snd (alloc One h)).
Proof.
  intros R WF EK Ec. pose proof (rd_inv _ _ _ _ _ R) as I.
  set (d' := with_c d _ _).
  assert (OW : forall x, In x (owned d' ++ leaked d') -> In x (owned d ++ leaked d) \/ x = (One, At (next h))).
  { intros x. unfold d', owned, leaked, with_c; cbn [d_grad d_optr o_kind o_c1 o_c2 d_opt d_W d_size d_rank]. rewrite EK. cbn. destruct b; intuition auto. }
  assert (OW2 : forall k i, In (k, At i) (owned d ++ leaked d) -> In (k, At i) (owned d' ++ leaked d')).
  { intros k i. unfold d', owned, leaked, with_c; cbn [d_grad d_optr o_kind o_c1 o_c2 d_opt d_W d_size d_rank]. rewrite EK. cbn. destruct b; rewrite Ec; intuition auto; discriminate. }
  assert (ON : In (One, At (next h)) (owned d' ++ leaked d')).
  { unfold d', owned, leaked, with_c; cbn [d_grad d_optr o_kind o_c1 o_c2 d_opt d_W d_size d_rank]. rewrite EK. cbn. destruct b; auto. }
  constructor.
  - constructor.
    + assert (NN : ~ In (next h) (ids (owned d ++ leaked d))).
      { intro X. apply ids_at_in in X as (k & X). pose proof (inv_ok _ _ _ _ I) as F. rewrite Forall_forall in F. specialize (F _ X).
        unfold okp in F; cbn in F. rewrite WF in F by lia. discriminate. }
      pose proof (inv_nd _ _ _ _ I) as ND.
      unfold d', owned, leaked, with_c in *; cbn [d_grad d_optr o_kind o_c1 o_c2 d_opt d_W d_size d_rank] in *. rewrite EK in *.
      rewrite !ids_app in *. cbn [app ids] in *.
      destruct b; rewrite Ec in *; cbn [ids app] in *.
      * destruct (d_grad d) as [| |g].
        -- constructor; assumption.
        -- constructor; assumption.
        -- cbn [ids app] in *. apply NoDup_cons_iff in ND as [N1 ND]. constructor; [|constructor].
           ++ intros [X|X]; [apply NN; left; congruence|contradiction].
           ++ intro X. apply NN. now right.
           ++ exact ND.
      * destruct (d_grad d) as [| |g]; destruct (o_c1 (d_optr d)) as [| |c]; cbn [ids app] in *.
        all: repeat match goal with H : NoDup (_ :: _) |- _ => apply NoDup_cons_iff in H as [? H] end.
        all: repeat constructor; cbn [In] in *; try tauto.
        all: try (intro; apply NN; intuition congruence). all: try (intuition congruence).
    + rewrite Forall_forall. intros (k, p) Hin. apply OW in Hin as [Hin|Hin].
      * pose proof (inv_ok _ _ _ _ I) as F. rewrite Forall_forall in F. specialize (F _ Hin). unfold okp in *; cbn [fst snd] in *.
        destruct p; auto. now apply alloc_live.
      * injection Hin as -> ->. unfold okp; cbn. now rewrite Nat.eqb_refl.
    + intros i Hi HL. cbn in HL. destruct (Nat.eqb_spec i (next h)) as [->|].
      * eapply ids_in, ON.
      * pose proof (inv_all _ _ _ _ I i Hi HL) as X. apply ids_at_in in X as (k & X). eapply ids_in, OW2, X.
    + intros i Hi. cbn. rewrite eqb_ne; [apply (inv_old _ _ _ _ I); exact Hi|]. pose proof (inv_le _ _ _ _ I). lia.
    + apply I.
    + intros i Hi. apply ids_at_in in Hi as (k & Hi). apply OW in Hi as [Hi|Hi].
      * apply (inv_new _ _ _ _ I). eapply ids_in, Hi.
      * injection Hi as -> ->. right. apply (inv_le _ _ _ _ I).
    + apply I.
    + apply I.
    + intros i Hi. cbn in *. rewrite eqb_ne by lia. apply WF. lia.
    + cbn. pose proof (inv_le _ _ _ _ I). lia.
  - exact (rd_init _ _ _ _ _ R).
  - exact (rd_V _ _ _ _ _ R).
  - cbn. rewrite EK. exact Logic.I.
Qed.

(** which subtrees have been contracted without a low-rank update so far *)
Definition seen (l : list (bool * bool)) (f : bool) : Prop := In (f, false) l.
(** a low-rank step of a subtree comes after a full step of the same subtree *)
Definition schedule (l : list (bool * bool)) : Prop :=
  forall l1 f l2, l = l1 ++ (f, true) :: l2 -> In (f, false) l1.

Definition cached (d : cpd) (past : list (bool * bool)) : Prop :=
  forall f, In (f, false) past -> (if f then o_c1 (d_optr d) else o_c2 (d_optr d)) <> Null.

Lemma with_c_same d : with_c d (o_c1 (d_optr d)) (o_c2 (d_optr d)) = d.
Proof. destruct d as [? ? ? ? ? ? ? ? ? ? o]; destruct o; reflexivity. Qed.

Lemma steps_ok h0 v w bv : wf h0 -> live h0 v = Some bv -> v <> w -> w < next h0 ->
  forall l past d h, Ready h0 v w d h -> (o_kind (d_optr d) = KDTLR -> cached d past) -> schedule (past ++ l) ->
  exists d' h', cpd_steps l d h = Ok (d', h') /\ Ready h0 v w d' h' /\ o_kind (d_optr d') = o_kind (d_optr d) /\
    d_order d' = d_order d /\ d_sz d' = d_sz d /\ d_rk d' = d_rk d /\ o_order (d_optr d') = o_order (d_optr d) /\ o_rank (d_optr d') = o_rank (d_optr d).
Proof.
  intros WF Lv NE Bw. induction l as [|(f, lr) l IH]; intros past d h R C Sch.
  - exists d, h. cbn. repeat split; try apply R; auto.
  - cbn [cpd_steps]. unfold cpd_step.
    destruct (ready_live h0 v w bv d h WF Lv NE Bw R) as (U1 & U2 & U3 & U4). rewrite U1, U2, U3, U4. cbn [bind].
    assert (Sch' : schedule ((past ++ [(f, lr)]) ++ l)) by (rewrite <- app_assoc; exact Sch).
    assert (Triv : o_kind (d_optr d) <> KDTLR -> exists d' h', cpd_steps l d h = Ok (d', h') /\ Ready h0 v w d' h' /\ o_kind (d_optr d') = o_kind (d_optr d) /\
      d_order d' = d_order d /\ d_sz d' = d_sz d /\ d_rk d' = d_rk d /\ o_order (d_optr d') = o_order (d_optr d) /\ o_rank (d_optr d') = o_rank (d_optr d)).
    { intro NK. apply (IH (past ++ [(f, lr)])); [exact R|congruence|exact Sch']. }
    destruct (o_kind (d_optr d)) eqn:EK; cbn [bind]; try (apply Triv; discriminate).
    2:{ pose proof (rd_old _ _ _ _ _ R) as RO. rewrite EK in RO. destruct RO as (N1 & N2 & N3).
        pose proof (inv_ok _ _ _ _ (rd_inv _ _ _ _ _ R)) as F. unfold owned, leaked in F. rewrite EK in F.
        destruct (okp_at h Arr (o_is_cached (d_optr d)) _ F) as (i1 & E1 & L1); [cbn; tauto|exact N2|].
        destruct (okp_at h Arr (o_tensors (d_optr d)) _ F) as (i2 & E2 & L2); [cbn; tauto|exact N3|].
        destruct (okp_at h Arr (o_oldW (d_optr d)) _ F) as (i3 & E3 & L3); [cbn; tauto|exact N1|].
        rewrite E1, E2, E3, (use_at _ _ _ L1), (use_at _ _ _ L2), (use_at _ _ _ L3). cbn [bind]. apply Triv. discriminate. }
    specialize (C eq_refl).
    pose proof (inv_ok _ _ _ _ (rd_inv _ _ _ _ _ R)) as F. unfold owned, leaked in F. rewrite EK in F.
    assert (CA : (if f then o_c1 (d_optr d) else o_c2 (d_optr d)) <> Null -> exists i, (if f then o_c1 (d_optr d) else o_c2 (d_optr d)) = At i /\ live h i = Some One).
    { intro NN. apply (okp_at h One _ _ F); [|exact NN]. destruct f; cbn; tauto. }
    assert (Same : (if f then o_c1 (d_optr d) else o_c2 (d_optr d)) <> Null ->
      exists d' h', cpd_steps l (with_c d (o_c1 (d_optr d)) (o_c2 (d_optr d))) h = Ok (d', h') /\ Ready h0 v w d' h' /\ o_kind (d_optr d') = KDTLR /\
        d_order d' = d_order d /\ d_sz d' = d_sz d /\ d_rk d' = d_rk d /\ o_order (d_optr d') = o_order (d_optr d) /\ o_rank (d_optr d') = o_rank (d_optr d)).
    { intro NN. rewrite with_c_same, <- EK. apply (IH (past ++ [(f, lr)])); [exact R| |exact Sch'].
      intros _ f' Hf. apply in_app_iff in Hf as [Hf|[Hf|[]]]; [now apply C|]. injection Hf as -> _. exact NN. }
    destruct lr; cbn [bind].
    + assert (NN : (if f then o_c1 (d_optr d) else o_c2 (d_optr d)) <> Null) by (apply C, (Sch past f l eq_refl)).
      destruct (CA NN) as (i & Ei & Li). assert (UC : use (if f then o_c1 (d_optr d) else o_c2 (d_optr d)) h = Ok tt) by (rewrite Ei; apply (use_at _ _ _ Li)). rewrite UC. cbn [bind].
      replace (if f then if f then o_c1 (d_optr d) else o_c2 (d_optr d) else o_c1 (d_optr d)) with (o_c1 (d_optr d)) by (destruct f; reflexivity).
      replace (if f then o_c2 (d_optr d) else if f then o_c1 (d_optr d) else o_c2 (d_optr d)) with (o_c2 (d_optr d)) by (destruct f; reflexivity).
      unfold with_c in Same. rewrite EK in Same. exact (Same NN).
    + destruct (if f then o_c1 (d_optr d) else o_c2 (d_optr d)) as [| |i] eqn:Ec; cbn [nonnull bind].
      * pose proof (inv_next _ _ _ _ (rd_inv _ _ _ _ _ R)) as WFh.
        pose proof (ready_cache f h0 v w d h R WFh EK Ec) as R'.
        unfold alloc at 1. cbn [bind].
        change (mkHeap (fun i => if i =? next h then Some One else live h i) (S (next h))) with (snd (alloc One h)).
        rewrite (use_at (next h) (snd (alloc One h)) One) by (cbn; now rewrite Nat.eqb_refl). cbn [bind].
        unfold with_c in R'. rewrite EK in R'.
        destruct (IH (past ++ [(f, false)]) _ _ R') as (d' & h' & E' & R'' & K' & E1 & E2 & E3 & E4 & E5); [|exact Sch'|].
        { intros _ f' Hf. apply in_app_iff in Hf as [Hf|[Hf|[]]].
          - pose proof (C f' Hf) as NN. cbn. destruct f, f'; try discriminate; exact NN.
          - injection Hf as <-. cbn. destruct f; discriminate. }
        exists d', h'. split; [exact E'|]. split; [exact R''|]. split; [exact K'|]. auto.
      * exfalso. destruct (CA ltac:(congruence)) as (? & ? & ?). congruence.
      * destruct (CA ltac:(congruence)) as (i' & Ei & Li). injection Ei as <-. rewrite (use_at _ _ _ Li). cbn [bind].
        replace (if f then At i else o_c1 (d_optr d)) with (o_c1 (d_optr d)) by (destruct f; congruence).
        replace (if f then o_c2 (d_optr d) else At i) with (o_c2 (d_optr d)) by (destruct f; congruence).
        unfold with_c in Same. rewrite EK in Same. apply Same. discriminate.
Qed.

Lemma dl_schedule_ok : forall hits first count flag past,
  (first = false -> In (true, false) past) ->
  (1 <= count -> In (true, false) past /\ In (false, false) past) ->
  schedule past -> schedule (past ++ dl_schedule first count flag hits).
Proof.
  induction hits as [|hit hits IH]; intros first count flag past H1 H2 HS.
  - cbn. now rewrite app_nil_r.
  - cbn [dl_schedule].
    set (x := (first, flag && (1 <? count))).
    assert (S1 : schedule (past ++ [x])).
    { intros l1 f l2 E. destruct l2 as [|y l2].
      - apply app_inj_tail in E as [-> E]. unfold x in E. injection E as <- E. apply andb_true_iff in E as [_ E].
        apply Nat.ltb_lt in E. destruct (H2 ltac:(lia)). destruct first; assumption.
      - assert (exists l2', past = l1 ++ (f, true) :: l2') as (l2' & ->).
        { clear - E. destruct (exists_last (l := y :: l2)) as (l2' & z & E2); [discriminate|]. rewrite E2 in E.
          change (l1 ++ (f, true) :: l2' ++ [z]) with (l1 ++ ((f, true) :: l2') ++ [z]) in E. rewrite app_assoc in E.
          apply app_inj_tail in E as [-> _]. eauto. }
        eapply HS. reflexivity. }
    assert (IN : forall y, In y past -> In y (past ++ [x])) by (intros; apply in_or_app; now left).
    assert (Full : count <= 1 -> In (first, false) (past ++ [x])).
    { intro Hc. apply in_or_app. right. left. unfold x. f_equal. destruct (Nat.ltb_spec 1 count); [lia|]. now rewrite andb_false_r. }
    assert (First : In (true, false) (past ++ [x]) /\ (first = false -> In (false, false) (past ++ [x]))).
    { destruct (le_lt_dec count 1) as [Hc|Hc].
      - specialize (Full Hc). destruct first; split; auto; discriminate.
      - destruct (H2 ltac:(lia)). split; auto. }
    destruct First as [Ft Ff].
    destruct (((if first then count else count + 1) =? 5) && negb first);
    match goal with |- schedule (_ ++ x :: ?l) => change (past ++ x :: l) with (past ++ [x] ++ l) end; rewrite app_assoc.
    + apply IH; [auto|lia|exact S1].
    + apply IH; [auto| |exact S1]. destruct first; cbn; intro Hc.
      * destruct (H2 Hc). auto.
      * auto.
Qed.
Lemma schedule_nil : schedule [].
Proof. intros l1 f l2 E. destruct l1; discriminate. Qed.

(** ** A second Init *)
Lemma bind_err {A B} e (f : A -> res B) : bind (Err e) f = Err e. Proof. reflexivity. Qed.

Lemma loop_err_or_ok (body : nat -> res unit) : forall n i, loop n i (fun j _ => body j) tt = Ok tt \/ exists e, loop n i (fun j _ => body j) tt = Err e.
Proof. intros n i. destruct (loop n i (fun j _ => body j) tt) as [[]|e]; eauto. Qed.

Lemma del_ok_live k p h h' : del k p h = Ok h' -> forall i, live h i = None -> live h' i = None.
Proof.
  destruct p as [| |j]; cbn; intros E i Hi; try discriminate; [now inversion E; subst|].
  destruct (live h j) as [k'|] eqn:Ej; [|discriminate]. destruct (block_eqb k k'); [|discriminate]. injection E as <-. cbn.
  destruct (i =? j); auto.
Qed.
Lemma del_ok_at k i h h' : del k (At i) h = Ok h' -> live h' i = None /\ next h' = next h.
Proof. cbn. destruct (live h i) as [k'|]; [|discriminate]. destruct (block_eqb k k'); [|discriminate]. intro E; injection E as <-. cbn. now rewrite Nat.eqb_refl. Qed.
Lemma del_next k p h h' : del k p h = Ok h' -> next h' = next h.
Proof. destruct p; [cbn; congruence|discriminate|apply del_ok_at]. Qed.
Lemma del_if_ok_live k p h h' : del_if k p h = Ok h' -> forall i, live h i = None -> live h' i = None.
Proof. destruct p; cbn [del_if nonnull bind]; [congruence|discriminate|apply del_ok_live]. Qed.
Lemma del_if_next k p h h' : del_if k p h = Ok h' -> next h' = next h.
Proof. destruct p; cbn [del_if nonnull bind]; [congruence|discriminate|apply del_next]. Qed.

(** an object that has a tensor V with the same pointer in the optimizer cannot be initialised again *)
Lemma reinit d h v V W : d_V d = At v -> o_V (d_optr d) = At v -> v < next h ->
  exists e, cpd_Init d V W h = Err e.
Proof.
  intros E1 E2 Hv. unfold cpd_Init.
  destruct (decomp_Init d V W h) as [[d1 h1]|e] eqn:ED; [|eexists; reflexivity].
  assert (P : live h1 v = None /\ next h1 = next h /\ d_optr d1 = d_optr d).
  { unfold decomp_Init in ED.
    destruct (use (t_ptr V) h); cbn [bind] in ED; [|discriminate].
    destruct (check _); cbn [bind] in ED; [|discriminate].
    destruct (for_ _ _ _ _); cbn [bind] in ED; [|discriminate].
    rewrite E1 in ED. cbn [del_if nonnull bind] in ED.
    destruct (del One (At v) h) as [h2|] eqn:D1; cbn [bind] in ED; [|discriminate].
    destruct (nonnull (m_ptr W)) as [b|]; cbn [bind] in ED; [|discriminate].
    apply del_ok_at in D1 as [D1 D1n].
    destruct (if b then del Arr (d_W d) h2 else Ok h2) as [h3|] eqn:D2; cbn [bind] in ED; [|discriminate].
    injection ED as <- <-. cbn. destruct b.
    - split; [eapply del_ok_live; eassumption|]. split; [|reflexivity]. apply del_next in D2. congruence.
    - injection D2 as <-. auto. }
  destruct P as (P1 & P2 & P3). cbn [bind].
  destruct (del_if Arr (d_grad d1) h1) as [h2|] eqn:D; cbn [bind]; [|eexists; reflexivity].
  pose proof (del_if_ok_live _ _ _ _ D v P1) as Q1. pose proof (del_if_next _ _ _ _ D) as Q2.
  unfold alloc. set (h3 := mkHeap _ _).
  assert (L3 : live h3 v = None) by (cbn; rewrite eqb_ne by lia; exact Q1).
  destruct (use (d_size d1) h3); cbn [bind]; [|eexists; reflexivity].
  destruct (use (d_rank d1) h3); cbn [bind]; [|eexists; reflexivity].
  destruct (use (d_world d1) h3); cbn [bind]; [|eexists; reflexivity].
  destruct (use (d_opt d1) h3); cbn [bind]; [|eexists; reflexivity].
  unfold configure. rewrite P3, E2.
  destruct (use (t_ptr V) h3); cbn [bind]; [|eexists; reflexivity].
  destruct (check _); cbn [bind]; [|eexists; reflexivity].
  destruct (for_ _ _ _ _); cbn [bind]; [|eexists; reflexivity].
  cbn [del_if nonnull bind]. rewrite del_dead by exact L3. eexists; reflexivity.
Qed.
