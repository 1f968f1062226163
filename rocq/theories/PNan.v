(** Values that absorb: lemmas about the model that hold whatever the element type does apart from that *)
From Coq Require Import List ZArith Lia Bool Arith.
From Verif Require Import Base Num Tensor Spec MCommon MCP PBase PTensor.
Import ListNotations.

Section A.
Context {N : num}.
Local Open Scope num_scope.
Definition allT (P : N -> Prop) (T : tensor N) : Prop := forall x, In x (data T) -> P x.
Definition posT (T : tensor N) : Prop := forall n, In n (lens T) -> (0 < n)%nat.
Record ideal (P : N -> Prop) : Prop := {
  id_0 : P n0;
  id_add : forall x y, P x -> P y -> P (x + y);
  id_mul_l : forall x y, P x -> P (x * y);
  id_mul_r : forall x y, P y -> P (x * y);
}.
Record absorbing (B : N -> Prop) : Prop := {
  ab_add_l : forall x y, B x -> B (x + y);
  ab_add_r : forall x y, B y -> B (x + y);
  ab_mul_l : forall x y, B x -> B (x * y);
  ab_mul_r : forall x y, B y -> B (x * y);
}.
Lemma ideal_true : ideal (fun _ => True).
Proof. split; auto. Qed.

(** partial correctness of the loops *)
Lemma loop_part {S} (P : nat -> S -> Prop) body n i (s s' : S) : loop n i body s = Ok s' -> P i s ->
  (forall j s s', (i <= j < i + n)%nat -> P j s -> body j s = Ok s' -> P (Datatypes.S j) s') -> P (i + n)%nat s'.
Proof.
  revert i s. induction n as [|n IH]; intros i s E H0 Hs; cbn [loop] in E.
  - injection E as <-. rewrite Nat.add_0_r. auto.
  - apply bind_ok in E as (s1 & E1 & E2). replace (i + Datatypes.S n)%nat with (Datatypes.S i + n)%nat by lia. apply (IH (Datatypes.S i) s1); auto.
    + apply (Hs i s); auto. lia.
    + intros j t t' Hj. apply Hs. lia.
Qed.
Lemma for_part {S} (P : nat -> S -> Prop) body lo hi (s s' : S) : (lo <= hi)%nat -> for_ lo hi body s = Ok s' -> P lo s ->
  (forall j s s', (lo <= j < hi)%nat -> P j s -> body j s = Ok s' -> P (Datatypes.S j) s') -> P hi s'.
Proof.
  intros H E H0 Hs. unfold for_ in E. replace hi with (lo + (hi - lo))%nat by lia. eapply loop_part; eauto. intros j t t' Hj. apply Hs. lia.
Qed.
Lemma for_keep {S} (P : S -> Prop) body lo hi (s s' : S) : for_ lo hi body s = Ok s' -> P s -> (forall j s s', P s -> body j s = Ok s' -> P s') -> P s'.
Proof.
  intros E H0 Hs. unfold for_ in E. apply (loop_part (fun _ => P) _ _ _ _ _ E H0). intros j t t' _. apply Hs.
Qed.

(** sums and products *)
Lemma bigsum_ideal P {X} (l : list X) f : ideal P -> (forall x, In x l -> P (f x)) -> P (bigsum l f).
Proof. intros HP. induction l as [|x l IH]; cbn; intros H; [apply HP|]. apply HP; auto. Qed.
Lemma bigprod_ideal P {X} (l : list X) f x : ideal P -> In x l -> P (f x) -> P (bigprod l f).
Proof. intros HP. induction l as [|y l IH]; cbn; intros H Hx; [destruct H|]. destruct H as [->|H]; [apply HP|apply id_mul_r]; auto. Qed.
Lemma sumc_ideal P d cs (f : env -> N) : ideal P -> (forall e, P (f e)) -> forall e, P (sumc d cs f e).
Proof. intros HP Hf. induction cs as [|c cs IH]; cbn; intros e; auto. apply bigsum_ideal; auto. Qed.
Lemma bigsum_abs B {X} (l : list X) f x : absorbing B -> In x l -> B (f x) -> B (bigsum l f).
Proof. intros HB. induction l as [|y l IH]; cbn; intros H Hx; [destruct H|]. destruct H as [->|H]; [apply ab_add_l|apply ab_add_r]; auto. Qed.
Lemma bigprod_abs B {X} (l : list X) f x : absorbing B -> In x l -> B (f x) -> B (bigprod l f).
Proof. intros HB. induction l as [|y l IH]; cbn; intros H Hx; [destruct H|]. destruct H as [->|H]; [apply ab_mul_l|apply ab_mul_r]; auto. Qed.
Lemma upd_same e c i : upd e c i c = i.
Proof. unfold upd. rewrite Z.eqb_refl. auto. Qed.
Lemma upd_other e c i x : x <> c -> upd e c i x = e x.
Proof. unfold upd. destruct (Z.eqb_spec x c); auto. contradiction. Qed.
(** one assignment of the summed letters with an absorbing value is enough *)
Lemma sumc_abs B d cs (f : env -> N) : absorbing B -> NoDup cs -> forall e e', envext f ->
  (forall c, In c cs -> (e' c < d c)%nat) -> (forall c, ~ In c cs -> e' c = e c) -> B (f e') -> B (sumc d cs f e).
Proof.
  intros HB. induction cs as [|c cs IH]; intros Hn e e' Hx H1 H2 H; cbn.
  - assert (E : f e = f e') by (apply Hx; intros x; symmetry; apply H2; auto). rewrite E. auto.
  - inversion Hn as [|? ? Hc Hn']; subst. apply (bigsum_abs B _ _ (e' c)); auto.
    + apply in_seq. specialize (H1 c (or_introl eq_refl)). lia.
    + apply (IH Hn' _ e'); auto; [intros; apply H1; right; auto|]. intros x Hxc. destruct (Z.eq_dec x c) as [->|Hne]; [rewrite upd_same; auto|].
      rewrite upd_other by auto. apply H2. intros [->|]; auto.
Qed.

(** what an assignment leaves *)
Lemma assign_ok acc C sC ts (D : tensor N) : assign acc C sC ts = Ok D ->
  lens D = lens C /\ wf D /\ length sC = order C /\ (forall t, In t ts -> term_ok C sC t = true) /\
  (forall x, In x (data D) -> exists idx, inb (lens C) idx /\
     x = if addressed sC idx then (let v := terms_val sC ts (fun c => assoc c (combine sC idx)) in if acc then at_ C idx + v else v) else at_ C idx).
Proof.
  unfold assign. destruct (Nat.eqb_spec (length sC) (order C)) as [El|]; [|discriminate]. destruct (forallb (term_ok C sC) ts) eqn:Ef; [|discriminate]. cbn [andb].
  intros E. injection E as <-. split; [reflexivity|]. split; [apply tabulate_wf|]. split; [auto|].
  split; [intros t Ht; rewrite forallb_forall in Ef; auto|]. intros x Hx. unfold tabulate in Hx. cbn [data] in Hx. apply in_map_iff in Hx as (idx & <- & Hi).
  apply all_idx_in in Hi. exists idx. split; auto.
Qed.
Lemma at_ideal P (T : tensor N) idx : ideal P -> allT P T -> P (at_ T idx).
Proof. intros HP HT. unfold at_. destruct (nth_in_or_default (lin (lens T) idx) (data T) n0) as [H| ->]; [auto|apply HP]. Qed.
Lemma term_ideal P sC c fs p e : ideal P -> In p fs -> allT P (fst p) -> P (term_val sC (mkTerm c fs) e).
Proof.
  intros HP Hp HT. unfold term_val. cbn [coef facs]. apply id_mul_r; auto. apply sumc_ideal; auto. intros e'. apply (bigprod_ideal P _ _ p); auto. apply at_ideal; auto.
Qed.
Definition two (sC : str) : Prop := exists a b, a <> b /\ sC = [a; b].
Lemma two_addressed sC (C : tensor N) idx : two sC -> length sC = order C -> inb (lens C) idx -> addressed sC idx = true.
Proof.
  intros (a & b & Hab & ->) HL Hi. unfold order in HL. destruct (lens C) as [|n1 [|n2 [|]]]; try discriminate. inversion Hi as [|i ? ? ? _ Hi']; subst. inversion Hi' as [|j ? ? ? _ Hi'']; subst. inversion Hi''; subst.
  unfold addressed, consistent. cbn. rewrite Z.eqb_refl, Nat.eqb_refl. destruct (Z.eqb_spec b a); [congruence|]. rewrite Z.eqb_refl, Nat.eqb_refl. reflexivity.
Qed.
Lemma assign_ideal P acc C sC c fs (D : tensor N) p : ideal P -> assign acc C sC [mkTerm c fs] = Ok D -> In p fs -> allT P (fst p) ->
  allT P C \/ (acc = false /\ two sC) -> allT P D.
Proof.
  intros HP E Hp HT HC x Hx. apply assign_ok in E as (_ & _ & HL & _ & HD). destruct (HD x Hx) as (idx & Hi & ->). cbn [terms_val fold_left].
  assert (Hv : P (term_val sC (mkTerm c fs) (fun c => assoc c (combine sC idx)))) by (apply (term_ideal P _ _ _ p); auto).
  destruct HC as [HC|[-> H2]].
  - destruct (addressed sC idx); [|apply at_ideal; auto]. destruct acc; auto. apply HP; auto. apply at_ideal; auto.
  - rewrite (two_addressed sC C) by auto. auto.
Qed.

(** bounds *)
Lemma consistent_in l c n : consistent l = true -> In (c, n) l -> assoc c l = n.
Proof. unfold consistent. rewrite forallb_forall. intros H Hi. specialize (H _ Hi). cbn in H. apply Nat.eqb_eq in H. auto. Qed.
Lemma inb_len idx ls : inb ls idx -> length idx = length ls.
Proof. intros H. induction H; cbn; auto. Qed.
Lemma assoc_bound sC idx ls c : inb ls idx -> length sC = length ls -> In c sC -> exists n, In (c, n) (combine sC ls) /\ (assoc c (combine sC idx) < n)%nat.
Proof.
  intros Hi. revert sC. induction Hi as [|i n idx ls Hlt Hi IH]; intros [|a sC] HL Hc; try discriminate; [destruct Hc|]. cbn in HL. cbn [combine assoc].
  destruct (Z.eqb_spec c a) as [->|Hne]; [exists n; cbn; auto|]. destruct Hc as [->|Hc]; [contradiction|]. destruct (IH sC ltac:(lia) Hc) as (m & H1 & H2). exists m. split; [right|]; auto.
Qed.
Lemma inb_map_env (e : env) s ls : length s = length ls -> (forall c n, In (c, n) (combine s ls) -> (e c < n)%nat) -> inb ls (map e s).
Proof.
  revert ls. induction s as [|c s IH]; intros [|n ls] HL H; try discriminate; cbn; [constructor|]. constructor; [apply H; left; auto|]. apply IH; [cbn in HL; lia|]. intros; apply H; right; auto.
Qed.
Lemma assoc_in_dims (fs : list (tensor N * str)) c : lengths_ok fs = true -> In c (flat_map snd fs) -> In (c, assoc c (dims fs)) (dims fs).
Proof.
  intros HL Hc. apply assoc_in. unfold dims. apply in_flat_map in Hc as (p & Hp & Hc). apply in_map_iff.
  unfold lengths_ok in HL. rewrite forallb_forall in HL. specialize (HL p Hp). apply Nat.eqb_eq in HL. unfold order in HL.
  assert (Hx : exists n, In (c, n) (combine (snd p) (lens (fst p)))).
  { clear Hp. revert Hc HL. generalize (lens (fst p)). generalize (snd p). induction l as [|a l IH]; intros [|m ls] Hc HL; try discriminate; [destruct Hc|]. destruct Hc as [->|Hc]; [exists m; left; auto|].
    destruct (IH ls Hc ltac:(cbn in HL; lia)) as (k & Hk). exists k. right. auto. }
  destruct Hx as (n & Hn). exists (c, n). split; auto. apply in_flat_map. exists p. auto.
Qed.
Lemma dims_pos (fs : list (tensor N * str)) c : lengths_ok fs = true -> (forall p, In p fs -> posT (fst p)) -> In c (flat_map snd fs) -> (0 < assoc c (dims fs))%nat.
Proof.
  intros HL Hp Hc. pose proof (assoc_in_dims fs c HL Hc) as H. unfold dims in H at 2. apply in_flat_map in H as (p & Hpi & H). apply in_combine_r in H. apply (Hp p Hpi). auto.
Qed.
(** one assignment of the summed letters that meets an absorbing element is enough *)
Lemma term_abs_at B sC c fs p e (k : env) : absorbing B -> In p fs ->
  (forall x, In x (contracted sC fs) -> (k x < assoc x (dims fs))%nat) ->
  B (at_ (fst p) (map (fun x => if in_dec Z.eq_dec x (contracted sC fs) then k x else e x) (snd p))) ->
  B (term_val sC (mkTerm c fs) e).
Proof.
  intros HB Hp Hk H. unfold term_val. cbn [coef facs]. apply ab_mul_r; auto.
  set (cs := contracted sC fs) in *.
  apply (sumc_abs B _ cs _ HB) with (e' := fun x => if in_dec Z.eq_dec x cs then k x else e x).
  - unfold cs, contracted. apply NoDup_nodup.
  - apply bigprod_facs_env.
  - intros x Hx. destruct (in_dec Z.eq_dec x cs); [auto|contradiction].
  - intros x Hx. destruct (in_dec Z.eq_dec x cs); [contradiction|auto].
  - apply (bigprod_abs B _ _ p); auto.
Qed.
Lemma term_abs B sC C c fs p idx : absorbing B -> term_ok C sC (mkTerm c fs) = true -> length sC = order C -> inb (lens C) idx ->
  In p fs -> wf (fst p) -> allT B (fst p) -> (forall x, In x (contracted sC fs) -> (0 < assoc x (dims fs))%nat) ->
  B (term_val sC (mkTerm c fs) (fun c => assoc c (combine sC idx))).
Proof.
  intros HB Hok HL Hi Hp Hwf HT Hpos. unfold term_ok in Hok. cbn [facs] in Hok. apply andb_true_iff in Hok as [Hl Hc].
  apply (term_abs_at B sC c fs p _ (fun _ => 0%nat)); auto.
  set (cs := contracted sC fs) in *. set (e := fun c => assoc c (combine sC idx)).
    apply HT. unfold at_. apply nth_In. unfold wf in Hwf. rewrite Hwf. apply lin_lt.
    pose proof Hl as Hl0. unfold lengths_ok in Hl. rewrite forallb_forall in Hl. pose proof (Hl p Hp) as Hlp. apply Nat.eqb_eq in Hlp. unfold order in Hlp. apply inb_map_env; auto.
    intros x n Hx. assert (Hd : In (x, n) (dims fs)) by (unfold dims; apply in_flat_map; exists p; auto).
    assert (Hall : In (x, n) (dims ((C, sC) :: fs))) by (change (dims ((C, sC) :: fs)) with (combine sC (lens C) ++ dims fs); apply in_or_app; auto).
    pose proof (consistent_in _ _ _ Hc Hall) as En.
    assert (Hxf : In x (flat_map snd fs)) by (apply in_flat_map; exists p; split; auto; apply in_combine_l in Hx; auto).
    destruct (in_dec Z.eq_dec x cs) as [Hin|Hout].
    + specialize (Hpos x Hin). pose proof (assoc_in_dims fs x Hl0 Hxf) as K.
      assert (K2 : In (x, assoc x (dims fs)) (dims ((C, sC) :: fs))) by (change (dims ((C, sC) :: fs)) with (combine sC (lens C) ++ dims fs); apply in_or_app; auto).
      pose proof (consistent_in _ _ _ Hc K2). lia.
    + assert (HsC : In x sC). { destruct (in_dec Z.eq_dec x sC); auto. exfalso. apply Hout. apply contracted_spec. auto. }
      destruct (assoc_bound sC idx (lens C) x Hi HL HsC) as (m & H1 & H2).
      assert (K2 : In (x, m) (dims ((C, sC) :: fs))) by (change (dims ((C, sC) :: fs)) with (combine sC (lens C) ++ dims fs); apply in_or_app; auto).
      pose proof (consistent_in _ _ _ Hc K2). unfold e. lia.
Qed.
Lemma fold_abs B {X} (f : X -> N) (l : list X) a : absorbing B -> B a \/ (exists x, In x l /\ B (f x)) -> B (fold_left (fun a x => a + f x) l a).
Proof.
  intros HB. revert a. induction l as [|y l IH]; cbn; intros a H; [destruct H as [H|(x & [] & _)]; auto|].
  apply IH. destruct H as [H|(x & [->|Hx] & Hf)]; [left; apply ab_add_l; auto|left; apply ab_add_r; auto|right; exists x; auto].
Qed.
(** an assignment with an absorbing tensor in one of its terms *)
Lemma assign_abs B C sC ts (D : tensor N) c fs p : absorbing B -> assign false C sC ts = Ok D -> two sC -> In (mkTerm c fs) ts -> In p fs ->
  wf (fst p) -> allT B (fst p) -> (forall x, In x (contracted sC fs) -> (0 < assoc x (dims fs))%nat) -> allT B D.
Proof.
  intros HB E H2 Ht Hp Hwf HT Hpos x Hx. apply assign_ok in E as (_ & _ & HL & Hok & HD). destruct (HD x Hx) as (idx & Hi & ->).
  rewrite (two_addressed sC C) by auto. cbv zeta. set (e := fun c => assoc c (combine sC idx)).
  assert (Hv : B (term_val sC (mkTerm c fs) e)) by (apply (term_abs B sC C c fs p idx); auto).
  destruct ts as [|t ts]; [destruct Ht|]. unfold terms_val. apply (fold_abs B (fun t' => term_val sC t' e)); auto.
  destruct Ht as [->|Ht]; [left; auto|right]. eexists. split; [exact Ht|exact Hv].
Qed.
(** a coefficient is enough *)
Lemma assign_coef B C sC c fs (D : tensor N) : absorbing B -> assign false C sC [mkTerm c fs] = Ok D -> two sC -> B c -> allT B D.
Proof.
  intros HB E H2 Hc x Hx. apply assign_ok in E as (_ & _ & HL & _ & HD). destruct (HD x Hx) as (idx & Hi & ->).
  rewrite (two_addressed sC C) by auto. cbn [terms_val fold_left]. unfold term_val. cbn [coef]. apply ab_mul_l; auto.
Qed.
Lemma assign_plus B C sC ts (D : tensor N) : absorbing B -> assign true C sC ts = Ok D -> wf C -> allT B C -> allT B D.
Proof.
  intros HB E Hwf HC x Hx. apply assign_ok in E as (_ & _ & HL & _ & HD). destruct (HD x Hx) as (idx & Hi & ->).
  assert (K : B (at_ C idx)) by (apply HC; unfold at_; apply nth_In; unfold wf in Hwf; rewrite Hwf; apply lin_lt; auto).
  destruct (addressed sC idx); auto. apply HB. auto.
Qed.
End A.
