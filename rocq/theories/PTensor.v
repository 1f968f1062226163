(** Lemmas about tensors, finite sums and the einsum statement [assign] *)
From Coq Require Import List ZArith Lia Bool Arith Permutation Ring.
From Verif Require Import Base Num Tensor PBase.
Import ListNotations.

(** ** index enumeration *)
Definition inb (ls idx : list nat) : Prop := Forall2 lt idx ls.

Lemma all_idx_in ls idx : In idx (all_idx ls) <-> inb ls idx.
Proof.
  revert idx; induction ls as [|n ls IH]; intros idx; simpl.
  - split; [intros [<-|[]]; constructor | intros H; inversion H; auto].
  - rewrite in_flat_map. split.
    + intros (t & Ht & Hi). apply in_map_iff in Hi as (i & <- & Hi). apply in_seq in Hi.
      constructor; [lia|]. apply IH; auto.
    + intros H. inversion H; subst. exists l. split; [apply IH; auto|].
      apply in_map_iff. exists x. split; auto. apply in_seq. lia.
Qed.
Lemma flat_map_const_length {A B} (f : A -> list B) l n :
  (forall a, In a l -> length (f a) = n) -> length (flat_map f l) = length l * n.
Proof.
  induction l; simpl; intros H; auto. rewrite app_length, IHl, (H a); auto.
Qed.
Lemma nth_flat_map_const {A B} (f : A -> list B) l n i k d d' :
  (forall a, length (f a) = n) -> i < n -> k < length l ->
  nth (i + n * k) (flat_map f l) d = nth i (f (nth k l d')) d.
Proof.
  intros Hf Hi. revert k. induction l as [|a l IH]; intros k Hk; simpl in *; [lia|].
  destruct k.
  - rewrite Nat.mul_0_r, Nat.add_0_r. rewrite app_nth1; auto. rewrite Hf; auto.
  - rewrite app_nth2; rewrite Hf; [|nia].
    replace (i + n * S k - n) with (i + n * k) by nia. apply IH. lia.
Qed.
Lemma all_idx_length ls : length (all_idx ls) = size ls.
Proof.
  induction ls as [|n ls IH]; simpl; auto.
  rewrite flat_map_const_length with (n:=n).
  - rewrite IH. unfold size. simpl. lia.
  - intros. rewrite map_length, seq_length; auto.
Qed.
Lemma inb_nth ls idx m : inb ls idx -> m < length ls -> nth m idx 0 < nth m ls 0.
Proof. intros Hx. revert m. induction Hx; intros m Hm; simpl in *; [lia|]. destruct m; auto. apply IHHx. lia. Qed.
Lemma lin_lt ls idx : inb ls idx -> lin ls idx < size ls.
Proof.
  intros H. induction H; simpl; [unfold size; simpl; lia|].
  unfold size in *. simpl. nia.
Qed.
Lemma nth_all_idx ls idx d : inb ls idx -> nth (lin ls idx) (all_idx ls) d = idx.
Proof.
  intros H. induction H as [|i n idx ls Hi H IH]; simpl; auto.
  rewrite nth_flat_map_const with (d':=d).
  - rewrite IH. rewrite (nth_indep _ d (0::idx)) by (rewrite map_length, seq_length; auto).
    rewrite (map_nth (fun i => i :: idx)), seq_nth; auto.
  - intros. rewrite map_length, seq_length; auto.
  - auto.
  - rewrite all_idx_length. apply lin_lt; auto.
Qed.

Lemma NoDup_app_intro {A} (l1 l2 : list A) :
  NoDup l1 -> NoDup l2 -> (forall x, In x l1 -> ~ In x l2) -> NoDup (l1 ++ l2).
Proof.
  intros H1 H2 H. induction H1; simpl; auto. constructor.
  - rewrite in_app_iff. intros [?|?]; [auto|]. eapply H; eauto. left; auto.
  - apply IHNoDup; auto. intros. apply H. right; auto.
Qed.
Lemma NoDup_map_inj {A B} (f : A -> B) l :
  (forall x y, In x l -> In y l -> f x = f y -> x = y) -> NoDup l -> NoDup (map f l).
Proof.
  intros Hf Hl. induction Hl; simpl; constructor.
  - intros Hin. apply in_map_iff in Hin as (y & E & Hy). apply Hf in E; [subst; auto|right; auto|left; auto].
  - apply IHHl. intros. apply Hf; auto; right; auto.
Qed.
Lemma all_idx_nodup ls : NoDup (all_idx ls).
Proof.
  induction ls as [|n ls IH]; simpl; [constructor; auto; constructor|].
  induction IH as [|t l Hn Hd IH]; simpl; [constructor|].
  apply NoDup_app_intro; auto.
  - apply NoDup_map_inj; [|apply seq_NoDup]. intros; congruence.
  - intros x Hx Hx'. apply in_map_iff in Hx as (i & <- & _).
    apply in_flat_map in Hx' as (t' & Ht' & Hi). apply in_map_iff in Hi as (i' & E & _). injection E as _ ->. auto.
Qed.

Section P.
Context {N : num}.
Local Open Scope num_scope.

Lemma tabulate_wf ls (f : list nat -> N) : wf (tabulate ls f).
Proof. unfold wf, tabulate. simpl. rewrite map_length. apply all_idx_length. Qed.
Lemma zeros_wf ls : wf (@zeros N ls).
Proof. apply tabulate_wf. Qed.
Lemma at_tabulate ls (f : list nat -> N) idx : inb ls idx -> at_ (tabulate ls f) idx = f idx.
Proof.
  intros H. unfold at_, tabulate. simpl.
  rewrite (nth_indep _ n0 (f [])) by (rewrite map_length, all_idx_length; apply lin_lt; auto).
  rewrite map_nth. f_equal. apply nth_all_idx; auto.
Qed.
Lemma at_all (T : tensor N) : wf T -> map (at_ T) (all_idx (lens T)) = data T.
Proof.
  intros H. unfold wf in H. apply nth_ext with (d:=n0) (d':=n0).
  - rewrite map_length, all_idx_length; auto.
  - intros k Hk. rewrite map_length, all_idx_length in Hk.
    rewrite (nth_indep _ n0 (at_ T [])) by (rewrite map_length, all_idx_length; auto).
    rewrite map_nth. unfold at_. f_equal.
    (* lin of the k-th multi-index is k *)
    clear H. revert k Hk. induction (lens T) as [|n ls IH]; intros k Hk; unfold size in *; simpl in *.
    + lia.
    + destruct n as [|n]; [simpl in Hk; lia|].
      pose proof (Nat.div_mod k (S n)) as Hd. specialize (Hd ltac:(lia)).
      pose proof (Nat.mod_upper_bound k (S n) ltac:(lia)) as Hm.
      set (i := k mod S n) in *. set (q := Nat.div k (S n)) in *.
      assert (Hq : q < fold_right Nat.mul 1 ls) by nia.
      assert (E : nth k (flat_map (fun t => map (fun i => i :: t) (seq 0 (S n))) (all_idx ls)) []
                  = i :: nth q (all_idx ls) []).
      { replace k with (i + S n * q)%nat by lia.
        rewrite (nth_flat_map_const (fun t => map (fun i => i :: t) (seq 0 (S n))) (all_idx ls) (S n) i q [] []).
        - rewrite (nth_indep _ [] (0%nat :: nth q (all_idx ls) [])) by (rewrite map_length, seq_length; auto).
          rewrite (map_nth (fun i => i :: nth q (all_idx ls) [])), seq_nth; auto.
        - intros. rewrite map_length, seq_length; auto.
        - auto.
        - rewrite all_idx_length. auto. }
      simpl in E. simpl. rewrite E. rewrite IH by auto. lia.
Qed.
Lemma tensor_ext (A B : tensor N) :
  wf A -> wf B -> lens A = lens B -> (forall idx, inb (lens A) idx -> at_ A idx = at_ B idx) -> A = B.
Proof.
  intros HA HB HL H. destruct A as [la da], B as [lb db]. simpl in *. subst lb. f_equal.
  transitivity (map (at_ (mkT la da)) (all_idx la)); [symmetry; apply (at_all (mkT la da)); auto|].
  transitivity (map (at_ (mkT la db)) (all_idx la)); [|apply (at_all (mkT la db)); auto].
  apply map_ext_in. intros idx Hi. apply H. apply all_idx_in; auto.
Qed.
Lemma tabulate_ext ls (f g : list nat -> N) :
  (forall idx, inb ls idx -> f idx = g idx) -> tabulate ls f = tabulate ls g.
Proof.
  intros H. unfold tabulate. f_equal. apply map_ext_in. intros. apply H. apply all_idx_in; auto.
Qed.

(** ** sums, without laws *)
Lemma bigsum_ext {X} (l : list X) (f g : X -> N) :
  (forall x, In x l -> f x = g x) -> bigsum l f = bigsum l g.
Proof. intros H. induction l; simpl; auto. rewrite H by (left; auto). f_equal. apply IHl. intros; apply H; right; auto. Qed.
Lemma bigprod_ext {X} (l : list X) (f g : X -> N) :
  (forall x, In x l -> f x = g x) -> bigprod l f = bigprod l g.
Proof. intros H. induction l; simpl; auto. rewrite H by (left; auto). f_equal. apply IHl. intros; apply H; right; auto. Qed.
Lemma bigsum_map {X Y} (h : Y -> X) l (f : X -> N) : bigsum (map h l) f = bigsum l (fun y => f (h y)).
Proof. induction l; simpl; auto. f_equal. apply IHl. Qed.
Lemma bigprod_map {X Y} (h : Y -> X) l (f : X -> N) : bigprod (map h l) f = bigprod l (fun y => f (h y)).
Proof. induction l; simpl; auto. f_equal. apply IHl. Qed.

Lemma upd_same e c i : upd e c i c = i.
Proof. unfold upd. rewrite Z.eqb_refl. auto. Qed.
Lemma upd_other e c i c' : c' <> c -> upd e c i c' = e c'.
Proof. intros. unfold upd. destruct (Z.eqb_spec c' c); congruence. Qed.

(** f and g agree on every environment reached *)
Lemma sumc_ext2 d d' cs (f g : env -> N) e1 e2 :
  (forall c, In c cs -> d c = d' c) ->
  (forall v : env, (forall c, In c cs -> v c < d c) ->
     f (fun c => if memc c cs then v c else e1 c) = g (fun c => if memc c cs then v c else e2 c)) ->
  (forall e e', (forall c, e c = e' c) -> f e = f e') ->
  (forall e e', (forall c, e c = e' c) -> g e = g e') ->
  sumc d cs f e1 = sumc d' cs g e2.
Proof.
  intros Hd H Hf Hg. revert e1 e2 H. induction cs as [|c cs IH]; intros e1 e2 H; simpl.
  - specialize (H e1). simpl in H. rewrite (Hf e1 (fun c => e1 c)), (Hg e2 (fun c => e2 c)); auto.
    apply H. intros ? [].
  - rewrite (Hd c) by (left; auto). apply bigsum_ext. intros i Hi. apply in_seq in Hi.
    apply IH.
    + intros. apply Hd. right; auto.
    + intros v Hv.
      specialize (H (fun x => if memc x cs then v x else if Z.eqb x c then i else v x)).
      assert (Hr : forall c0, In c0 (c :: cs) ->
        (if memc c0 cs then v c0 else if Z.eqb c0 c then i else v c0) < d c0).
      { intros x Hx. destruct (memc x cs) eqn:E.
        - apply Hv. unfold memc in E. apply existsb_exists in E as (y & Hy & E). apply Z.eqb_eq in E. subst; auto.
        - destruct (Z.eqb_spec x c).
          + subst. rewrite (Hd c) by (left; auto). lia.
          + destruct Hx as [->|Hx]; [congruence|].
            assert (memc x cs = true); [|congruence]. apply existsb_exists. exists x. split; auto. apply Z.eqb_refl. }
      specialize (H Hr).
      match type of H with f ?A = g ?B => transitivity (f A); [apply Hf|transitivity (g B); [exact H|apply Hg]] end.
      * intros x. simpl. unfold upd. destruct (memc x cs), (Z.eqb x c); simpl; auto.
      * intros x. simpl. unfold upd. destruct (memc x cs), (Z.eqb x c); simpl; auto.
Qed.

Definition envext (f : env -> N) : Prop := forall e e', (forall c, e c = e' c) -> f e = f e'.
Lemma at_env (A : tensor N) s : envext (fun e => at_ A (map e s)).
Proof. intros e e' H. rewrite (map_ext e e'); auto. Qed.
Lemma sumc_env d cs f e e' : envext f -> (forall c, e c = e' c) -> sumc d cs f e = sumc d cs f e'.
Proof.
  intros Hf H. revert e e' H. induction cs; intros e e' H; simpl; auto.
  apply bigsum_ext. intros i _. apply IHcs. intros c. unfold upd. destruct (Z.eqb c a); auto.
Qed.
Lemma sumc_envext d cs f : envext f -> envext (sumc d cs f).
Proof. intros Hf e e' H. apply sumc_env; auto. Qed.

(** congruence in the body, for the environments that can occur *)
Lemma sumc_ext d cs (f g : env -> N) e :
  (forall e', (forall c, ~ In c cs -> e' c = e c) -> (forall c, In c cs -> e' c < d c) -> f e' = g e') ->
  sumc d cs f e = sumc d cs g e.
Proof.
  revert e. induction cs as [|c cs IH]; intros e H; simpl.
  - apply H; intros; auto. destruct H0.
  - apply bigsum_ext. intros i Hi. apply in_seq in Hi. apply IH.
    intros e' H1 H2. apply H.
    + intros x Hx. rewrite H1 by (intros ?; apply Hx; right; auto). apply upd_other. intros ->. apply Hx; left; auto.
    + intros x [<-|Hx].
      * destruct (in_dec Z.eq_dec c cs); [auto|]. rewrite H1 by auto. rewrite upd_same. lia.
      * auto.
Qed.
Lemma sumc_app d cs1 cs2 (f : env -> N) e : sumc d (cs1 ++ cs2) f e = sumc d cs1 (sumc d cs2 f) e.
Proof. revert e. induction cs1; intros; simpl; auto. apply bigsum_ext. intros. apply IHcs1. Qed.

Lemma memc_spec c l : reflect (In c l) (memc c l).
Proof.
  unfold memc. destruct (existsb (Z.eqb c) l) eqn:E; constructor.
  - apply existsb_exists in E as (x & Hx & E). apply Z.eqb_eq in E. subst; auto.
  - intros H. assert (existsb (Z.eqb c) l = true); [|congruence]. apply existsb_exists. exists c. split; auto. apply Z.eqb_refl.
Qed.

Lemma assoc_combine_map (h : Z -> nat) s c : In c s -> assoc c (combine s (map h s)) = h c.
Proof.
  induction s; simpl; intros H; [destruct H|]. destruct (Z.eqb_spec c a); [subst; auto|].
  apply IHs. destruct H; [congruence|auto].
Qed.

(** ** representation: T, read with the letters s, is the function G of the environment *)
Definition inr (d : Z -> nat) (s : str) (e : env) : Prop := forall c, In c s -> e c < d c.
Definition rep (d : Z -> nat) (T : tensor N) (s : str) (G : env -> N) : Prop :=
  wf T /\ lens T = map d s /\ forall e, inr d s e -> at_ T (map e s) = G e.

Lemma inb_map d s e : inr d s e -> inb (map d s) (map e s).
Proof. intros H. induction s; simpl; constructor; [apply H; left; auto|]. apply IHs. intros c Hc. apply H. right; auto. Qed.

Lemma rep_ext d T s G G' : rep d T s G -> (forall e, inr d s e -> G e = G' e) -> rep d T s G'.
Proof. intros (H1 & H2 & H3) H. split; [|split]; auto. intros. rewrite H3; auto. Qed.
Lemma rep_self d (T : tensor N) s : wf T -> lens T = map d s -> rep d T s (fun e => at_ T (map e s)).
Proof. split; auto. Qed.
Lemma rep_order d T s G : rep d T s G -> order T = length s.
Proof. intros (_ & H & _). unfold order. rewrite H. apply map_length. Qed.

(** every in-range index is [map e s] for a NoDup string *)
Lemma inb_env d s idx : NoDup s -> inb (map d s) idx ->
  exists e, map e s = idx /\ inr d s e.
Proof.
  intros Hs. revert idx. induction Hs as [|c s Hc Hs IH]; intros idx H; simpl in H.
  - inversion H. subst. exists (fun _ => 0%nat). split; auto. intros ? [].
  - inversion H; subst. destruct (IH l H4) as (e & <- & He).
    exists (upd e c x). split.
    + simpl. rewrite upd_same. f_equal. apply map_ext_in. intros a Ha. apply upd_other. intros ->; auto.
    + intros a [<-|Ha]; [rewrite upd_same; auto|]. rewrite upd_other; auto. intros ->; auto.
Qed.

(** the dimension checks of [assign] pass when everything has lengths [map d s] *)
Definition facs_fit (d : Z -> nat) (fs : list (tensor N * str)) : Prop :=
  forall p, In p fs -> lens (fst p) = map d (snd p).
Lemma in_dims d fs c n : facs_fit d fs -> In (c, n) (dims fs) -> n = d c /\ In c (flat_map snd fs).
Proof.
  intros H Hin. unfold dims in Hin. apply in_flat_map in Hin as (p & Hp & Hc).
  cbv beta in Hc. rewrite (H p Hp) in Hc.
  assert (n = d c /\ In c (snd p)) as [-> Hc'].
  { clear -Hc. induction (snd p); simpl in *; [destruct Hc|]. destruct Hc as [E|Hc]; [inversion E; auto|].
    destruct (IHl Hc); auto. }
  split; auto. apply in_flat_map. exists p. auto.
Qed.
Lemma assoc_in c l : In c (map fst l) -> In (c, assoc c l) l.
Proof.
  induction l as [|[c' v] l IH]; simpl; intros H; [destruct H|].
  destruct (Z.eqb_spec c c'); [subst; auto|]. right. apply IH. destruct H; [congruence|auto].
Qed.
Lemma dims_fst d fs c : facs_fit d fs -> In c (flat_map snd fs) -> In c (map fst (dims fs)).
Proof.
  intros H Hin. apply in_flat_map in Hin as (p & Hp & Hc). unfold dims.
  apply in_map_iff. exists (c, d c). split; auto. apply in_flat_map. exists p. split; auto.
  rewrite (H p Hp). clear -Hc. induction (snd p); simpl in *; [destruct Hc|]. destruct Hc; [subst; auto|right; auto].
Qed.
Lemma assoc_dims d fs c : facs_fit d fs -> In c (flat_map snd fs) -> assoc c (dims fs) = d c.
Proof.
  intros H Hin. pose proof (assoc_in c (dims fs) (dims_fst d fs c H Hin)) as H1.
  apply (in_dims d) in H1; auto. tauto.
Qed.
Lemma consistent_fit d fs : facs_fit d fs -> consistent (dims fs) = true.
Proof.
  intros H. unfold consistent. apply forallb_forall. intros [c n] Hin. simpl.
  destruct (in_dims d fs c n H Hin) as [-> Hc]. rewrite (assoc_dims d); auto. apply Nat.eqb_refl.
Qed.
Lemma lengths_fit d fs : facs_fit d fs -> lengths_ok fs = true.
Proof.
  intros H. apply forallb_forall. intros p Hp. unfold order. rewrite (H p Hp), map_length. apply Nat.eqb_refl.
Qed.
Lemma term_fit d C sC t : lens C = map d sC -> facs_fit d (facs t) -> term_ok C sC t = true.
Proof.
  intros HC H. unfold term_ok. rewrite (lengths_fit d) by auto. rewrite andb_true_l.
  apply (consistent_fit d). intros p [<-|Hp]; auto.
Qed.

Lemma contracted_spec sC (fs : list (tensor N * str)) c :
  In c (contracted sC fs) <-> In c (flat_map snd fs) /\ ~ In c sC.
Proof.
  unfold contracted. rewrite nodup_In, filter_In. split; intros [H1 H2]; split; auto.
  - destruct (memc_spec c sC); [discriminate|auto].
  - destruct (memc_spec c sC); auto.
Qed.
Lemma addressed_map sC (e : env) : addressed sC (map e sC) = true.
Proof.
  unfold addressed, consistent. apply forallb_forall. intros [c n] Hin. simpl.
  assert (n = e c /\ In c sC) as [-> Hc].
  { clear -Hin. induction sC; simpl in *; [destruct Hin|]. destruct Hin as [E|Hin]; [inversion E; auto|].
    destruct (IHsC Hin); auto. }
  rewrite assoc_combine_map by auto. apply Nat.eqb_refl.
Qed.

(** value of one term, in the language of [d] and [rep] *)
Definition tval (d : Z -> nat) (sC : str) (t : term N) (e : env) : N :=
  coef t * sumc d (contracted sC (facs t))
                (fun e' => bigprod (facs t) (fun p => at_ (fst p) (map e' (snd p)))) e.
Lemma bigprod_facs_env (fs : list (tensor N * str)) : envext (fun e' => bigprod fs (fun p => at_ (fst p) (map e' (snd p)))).
Proof. intros e e' H. apply bigprod_ext. intros p _. f_equal. apply map_ext. auto. Qed.
Lemma term_val_map d sC t e : facs_fit d (facs t) ->
  term_val sC t (fun c => assoc c (combine sC (map e sC))) = tval d sC t e.
Proof.
  intros H. unfold term_val, tval. f_equal. apply sumc_ext2.
  - intros c Hc. apply assoc_dims; auto. apply contracted_spec in Hc. tauto.
  - intros v Hv. apply bigprod_ext. intros p Hp. f_equal. apply map_ext_in. intros c Hc.
    destruct (memc_spec c (contracted sC (facs t))); auto.
    apply assoc_combine_map. destruct (in_dec Z.eq_dec c sC); auto.
    exfalso. apply n. apply contracted_spec. split; auto. apply in_flat_map. exists p; auto.
  - apply bigprod_facs_env.
  - apply bigprod_facs_env.
Qed.

Definition tsval (d : Z -> nat) (sC : str) (ts : list (term N)) (e : env) : N :=
  match ts with
  | [] => n0
  | t :: ts' => fold_left (fun a t' => a + tval d sC t' e) ts' (tval d sC t e)
  end.

Theorem assign_rep d acc C sC ts :
  NoDup sC -> lens C = map d sC ->
  (forall t, In t ts -> facs_fit d (facs t)) ->
  exists B, assign acc C sC ts = Ok B /\
    rep d B sC (fun e => if acc then at_ C (map e sC) + tsval d sC ts e else tsval d sC ts e).
Proof.
  intros Hs HC Hts. unfold assign.
  assert (length sC =? order C = true)%nat as ->.
  { unfold order. rewrite HC, map_length. apply Nat.eqb_refl. }
  assert (forallb (term_ok C sC) ts = true) as ->.
  { apply forallb_forall. intros t Ht. apply (term_fit d); auto. }
  simpl. eexists. split; [reflexivity|]. split; [apply tabulate_wf|]. split; [simpl; auto|].
  intros e He. rewrite at_tabulate by (rewrite HC; apply inb_map; auto).
  rewrite addressed_map.
  assert (E : terms_val sC ts (fun c => assoc c (combine sC (map e sC))) = tsval d sC ts e).
  { unfold terms_val, tsval. destruct ts as [|t ts]; auto.
    assert (Et : forall t0, In t0 (t :: ts) -> term_val sC t0 (fun c => assoc c (combine sC (map e sC))) = tval d sC t0 e).
    { intros. apply term_val_map. auto. }
    rewrite (Et t) by (left; auto).
    assert (Ht : forall t0, In t0 ts -> term_val sC t0 (fun c => assoc c (combine sC (map e sC))) = tval d sC t0 e).
    { intros. apply Et. right; auto. }
    clear Et. revert Ht. generalize (tval d sC t e). clear Hts. induction ts as [|t' ts IH]; intros a Ht; simpl; auto.
    rewrite Ht by (left; auto). apply IH. intros; apply Ht; right; auto. }
  rewrite E. destruct acc; auto.
Qed.
End P.
