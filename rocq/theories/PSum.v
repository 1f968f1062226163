(** Finite sums and einsum under the commutative-ring laws *)
From Coq Require Import List ZArith Lia Bool Arith Permutation Ring.
From Verif Require Import Base Num Tensor PBase PTensor.
Import ListNotations.

Section P.
Context {N : num} (RL : ring_laws N).
Let RT : ring_theory (@n0 N) n1 nadd nmul nsub nopp (@eq N) := RL.
Add Ring Nring : RT.
Local Open Scope num_scope.

Lemma bigsum_zero {X} (l : list X) (f : X -> N) : (forall x, In x l -> f x = n0) -> bigsum l f = n0.
Proof. intros H. induction l; simpl; auto. rewrite H by (left; auto). rewrite IHl by (intros; apply H; right; auto). ring. Qed.
Lemma bigsum_add {X} (l : list X) (f g : X -> N) : bigsum l (fun x => f x + g x) = bigsum l f + bigsum l g.
Proof. induction l; simpl; [ring|]. rewrite IHl. ring. Qed.
Lemma bigsum_sub {X} (l : list X) (f g : X -> N) : bigsum l (fun x => f x - g x) = bigsum l f - bigsum l g.
Proof. induction l; simpl; [ring|]. rewrite IHl. ring. Qed.
Lemma bigsum_opp {X} (l : list X) (f : X -> N) : bigsum l (fun x => - f x) = - bigsum l f.
Proof. induction l; simpl; [ring|]. rewrite IHl. ring. Qed.
Lemma bigsum_mul_l {X} (l : list X) a (f : X -> N) : bigsum l (fun x => a * f x) = a * bigsum l f.
Proof. induction l; simpl; [ring|]. rewrite IHl. ring. Qed.
Lemma bigsum_mul_r {X} (l : list X) a (f : X -> N) : bigsum l (fun x => f x * a) = bigsum l f * a.
Proof. induction l; simpl; [ring|]. rewrite IHl. ring. Qed.
Lemma bigsum_app {X} (l1 l2 : list X) (f : X -> N) : bigsum (l1 ++ l2) f = bigsum l1 f + bigsum l2 f.
Proof. induction l1; simpl; [ring|]. rewrite IHl1. ring. Qed.
Lemma bigprod_app {X} (l1 l2 : list X) (f : X -> N) : bigprod (l1 ++ l2) f = bigprod l1 f * bigprod l2 f.
Proof. induction l1; simpl; [ring|]. rewrite IHl1. ring. Qed.
Lemma bigprod_mul {X} (l : list X) (f g : X -> N) : bigprod l (fun x => f x * g x) = bigprod l f * bigprod l g.
Proof. induction l; simpl; [ring|]. rewrite IHl. ring. Qed.
Lemma bigsum_swap {X Y} (l : list X) (m : list Y) (f : X -> Y -> N) :
  bigsum l (fun x => bigsum m (fun y => f x y)) = bigsum m (fun y => bigsum l (fun x => f x y)).
Proof.
  induction l; simpl.
  - symmetry. apply bigsum_zero. auto.
  - rewrite IHl, <- bigsum_add. auto.
Qed.
Lemma bigsum_perm {X} (l m : list X) (f : X -> N) : Permutation l m -> bigsum l f = bigsum m f.
Proof. induction 1; simpl; try congruence. ring. Qed.
Lemma bigprod_perm {X} (l m : list X) (f : X -> N) : Permutation l m -> bigprod l f = bigprod m f.
Proof. induction 1; simpl; try congruence. ring. Qed.
Lemma bigsum_flat_map {X Y} (h : Y -> list X) l (f : X -> N) :
  bigsum (flat_map h l) f = bigsum l (fun y => bigsum (h y) f).
Proof. induction l; simpl; auto. rewrite bigsum_app, IHl. auto. Qed.
Lemma bigsum_filter {X} (p : X -> bool) l (f : X -> N) :
  bigsum (filter p l) f = bigsum l (fun x => if p x then f x else n0).
Proof. induction l; simpl; auto. destruct (p a); simpl; rewrite IHl; ring. Qed.
(** exactly one element of the list satisfies p *)
Lemma bigsum_single {X} (l : list X) (f : X -> N) a :
  NoDup l -> In a l -> (forall x, In x l -> x <> a -> f x = n0) -> bigsum l f = f a.
Proof.
  induction 1 as [|x l Hx Hl IH]; intros Ha H; [destruct Ha|]. simpl.
  destruct Ha as [->|Ha].
  - rewrite bigsum_zero; [ring|]. intros y Hy. apply H; [right; auto|]. intros ->; auto.
  - rewrite (H x) by (try (left; auto); intros ->; auto).
    rewrite IH; auto; [ring|]. intros; apply H; auto. right; auto.
Qed.

(** ** sumc *)
Lemma sumc_mul_r d cs (f : env -> N) a e : sumc d cs (fun e' => f e' * a) e = sumc d cs f e * a.
Proof. revert e. induction cs; intros; simpl; auto. rewrite <- bigsum_mul_r. apply bigsum_ext. auto. Qed.
Lemma sumc_mul_l d cs (f : env -> N) a e : sumc d cs (fun e' => a * f e') e = a * sumc d cs f e.
Proof. revert e. induction cs; intros; simpl; auto. rewrite <- bigsum_mul_l. apply bigsum_ext. auto. Qed.
Lemma sumc_add d cs (f g : env -> N) e : sumc d cs (fun e' => f e' + g e') e = sumc d cs f e + sumc d cs g e.
Proof. revert e. induction cs; intros; simpl; auto. rewrite <- bigsum_add. apply bigsum_ext. auto. Qed.
Lemma sumc_zero d cs e : sumc d cs (fun _ => n0) e = (n0 : N).
Proof. revert e. induction cs; intros; simpl; auto. apply bigsum_zero. auto. Qed.
Lemma sumc_bigsum {X} d cs (l : list X) (f : X -> env -> N) e :
  sumc d cs (fun e' => bigsum l (fun x => f x e')) e = bigsum l (fun x => sumc d cs (f x) e).
Proof.
  induction l; simpl; [apply sumc_zero|]. rewrite sumc_add. f_equal. apply IHl.
Qed.
(** a factor that does not look at the summed letters moves out *)
Lemma sumc_factor_r d cs (f g : env -> N) e :
  (forall e', (forall c, ~ In c cs -> e' c = e c) -> g e' = g e) ->
  sumc d cs (fun e' => f e' * g e') e = sumc d cs f e * g e.
Proof.
  intros H. rewrite <- sumc_mul_r. apply sumc_ext. intros e' H1 _. rewrite (H e'); auto.
Qed.
Lemma sumc_perm d cs cs' (f : env -> N) e :
  envext f -> NoDup cs -> Permutation cs cs' -> sumc d cs f e = sumc d cs' f e.
Proof.
  intros Hf Hn Hp. revert e. induction Hp; intros e; simpl.
  - auto.
  - inversion Hn; subst. apply bigsum_ext. intros. auto.
  - inversion Hn; subst. inversion H2; subst.
    rewrite bigsum_swap. apply bigsum_ext. intros i _. apply bigsum_ext. intros j _.
    apply sumc_env; auto. intros c. unfold upd.
    destruct (Z.eqb_spec c x), (Z.eqb_spec c y); auto. subst. exfalso. apply H1. left; auto.
  - rewrite IHHp1 by auto. apply IHHp2. eapply Permutation_NoDup; eauto.
Qed.
Lemma NoDup_same_Permutation (l m : list Z) : NoDup l -> NoDup m -> (forall c, In c l <-> In c m) -> Permutation l m.
Proof. apply NoDup_Permutation. Qed.

(** ** products of represented tensors *)
Definition fgrep (d : Z -> nat) (fg : list (tensor N * str * (env -> N))) : Prop :=
  Forall (fun q => rep d (fst (fst q)) (snd (fst q)) (snd q)) fg.

Lemma fgrep_fit d fg : fgrep d fg -> facs_fit d (map fst fg).
Proof.
  intros H p Hp. apply in_map_iff in Hp as (q & <- & Hq).
  unfold fgrep in H. rewrite Forall_forall in H. destruct (H q Hq) as (_ & E & _). auto.
Qed.

Lemma tval_rep d sC fg cs a e :
  fgrep d fg -> NoDup cs ->
  (forall c, In c cs <-> In c (flat_map snd (map fst fg)) /\ ~ In c sC) ->
  inr d sC e ->
  (forall q, In q fg -> envext (snd q)) ->
  tval d sC (mkTerm a (map fst fg)) e = a * sumc d cs (fun e' => bigprod fg (fun q => snd q e')) e.
Proof.
  intros H Hn Hc He Hx. unfold tval. simpl. f_equal.
  rewrite (sumc_perm d (contracted sC (map fst fg)) cs).
  - apply sumc_ext. intros e' H1 H2. rewrite bigprod_map. apply bigprod_ext. intros q Hq.
    unfold fgrep in H. rewrite Forall_forall in H. destruct (H q Hq) as (_ & _ & E). apply E.
    intros c Hcq. destruct (in_dec Z.eq_dec c cs); auto. rewrite H1 by auto.
    apply He. destruct (in_dec Z.eq_dec c sC); auto. exfalso. apply n. apply Hc. split; auto.
    apply in_flat_map. exists (fst q). split; auto. apply in_map. auto.
  - apply bigprod_facs_env.
  - apply NoDup_nodup.
  - apply NoDup_same_Permutation; auto; [apply NoDup_nodup|].
    intros c. rewrite contracted_spec. symmetry. apply Hc.
Qed.

(** C[sC] = product of represented tensors *)
Theorem contract_rep d C sC fg cs :
  NoDup sC -> lens C = map d sC -> fgrep d fg -> NoDup cs ->
  (forall c, In c cs <-> In c (flat_map snd (map fst fg)) /\ ~ In c sC) ->
  (forall q, In q fg -> envext (snd q)) ->
  exists B, assign false C sC [prodt (map fst fg)] = Ok B /\
    rep d B sC (fun e => sumc d cs (fun e' => bigprod fg (fun q => snd q e')) e).
Proof.
  intros Hs HC Hfg Hn Hc Hx.
  destruct (assign_rep d false C sC [prodt (map fst fg)] Hs HC) as (B & E & R).
  - intros t [<-|[]]. simpl. apply fgrep_fit; auto.
  - exists B. split; auto. eapply rep_ext; [exact R|]. intros e He. simpl.
    unfold prodt. rewrite (tval_rep d sC fg cs n1 e); auto. ring.
Qed.
End P.
