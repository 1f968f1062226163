(** Shapes do not depend on numbers: every function of the model that succeeds on tensors over one
    number type succeeds on tensors of the same shapes over any other. *)
From Coq Require Import List ZArith QArith Lia Bool Arith.
From Verif Require Import Base Num Tensor Spec MCommon MCP PBase PTensor.
Import ListNotations.
Local Close Scope Q_scope.

Definition osim {X Y} (R : X -> Y -> Prop) (x : res X) (y : res Y) : Prop :=
  forall b, y = Ok b -> exists a, x = Ok a /\ R a b.
Definition prodR {A A' B B'} (R1 : A -> A' -> Prop) (R2 : B -> B' -> Prop) (p : A * B) (q : A' * B') : Prop :=
  R1 (fst p) (fst q) /\ R2 (snd p) (snd q).

Lemma osim_ok {X Y} (R : X -> Y -> Prop) a b : R a b -> osim R (Ok a) (Ok b).
Proof. intros H c [= <-]. eauto. Qed.
Lemma osim_refl {X} (x : res X) : osim eq x x.
Proof. intros b ->. eauto. Qed.
Lemma osim_err {X Y} (R : X -> Y -> Prop) x e : osim R x (Err e).
Proof. intros b [=]. Qed.
Lemma osim_weaken {X Y} (R R' : X -> Y -> Prop) x y : (forall a b, R a b -> R' a b) -> osim R x y -> osim R' x y.
Proof. intros H Hx b E. destruct (Hx b E) as (a & Ea & Ha). eauto. Qed.
Lemma osim_bind {X Y X' Y'} (R : X -> Y -> Prop) (R' : X' -> Y' -> Prop) x y f g :
  osim R x y -> (forall a b, R a b -> osim R' (f a) (g b)) -> osim R' (bind x f) (bind y g).
Proof.
  intros Hx Hf c E. apply bind_ok in E as (b & Eb & Ec). destruct (Hx b Eb) as (a & -> & Ha).
  cbn [bind]. exact (Hf a b Ha c Ec).
Qed.
Lemma osim_bind_same {X X' Y'} (R' : X' -> Y' -> Prop) (x : res X) f g :
  (forall a, x = Ok a -> osim R' (f a) (g a)) -> osim R' (bind x f) (bind x g).
Proof. intros Hf c E. apply bind_ok in E as (b & Eb & Ec). rewrite Eb. cbn [bind]. exact (Hf b Eb c Ec). Qed.
Lemma loop_sim {S S'} (R : S -> S' -> Prop) body body' : forall n i s s',
  (forall j a b, i <= j < i + n -> R a b -> osim R (body j a) (body' j b)) -> R s s' -> osim R (loop n i body s) (loop n i body' s').
Proof.
  induction n; intros i s s' Hb Hs; cbn [loop]; [apply osim_ok; auto|].
  apply (osim_bind R). { apply Hb; auto; lia. } intros a b Hab. apply IHn; auto. intros j a' b' Hj. apply Hb. lia.
Qed.
Lemma for_sim {S S'} (R : S -> S' -> Prop) lo hi body body' s s' :
  (forall j a b, lo <= j < hi -> R a b -> osim R (body j a) (body' j b)) -> R s s' -> osim R (for_ lo hi body s) (for_ lo hi body' s').
Proof. intros Hb Hs. apply loop_sim; auto. intros j a b Hj. apply Hb. lia. Qed.
Lemma osim_eq_bind {X Y'} {A B} (R' : X -> Y' -> Prop) (R : A -> B -> Prop) x y f g :
  osim R x y -> (forall a b, R a b -> osim R' (f a) (g b)) -> osim R' (bind x f) (bind y g).
Proof. apply osim_bind. Qed.

Section Par.
Context {N1 N2 : num}.
Notation T1 := (tensor N1).
Notation T2 := (tensor N2).

Definition tsim (A : T1) (B : T2) : Prop := lens A = lens B.
Definition tsw (A : T1) (B : T2) : Prop := lens A = lens B /\ wf A /\ wf B.
Definition numany (a : N1) (b : N2) : Prop := True.
Lemma tsw_lens A B : tsw A B -> lens A = lens B. Proof. intros [H _]; auto. Qed.
Lemma tsw_nrow A B : tsw A B -> nrow A = nrow B. Proof. intros [H _]. unfold nrow. rewrite H; auto. Qed.
Lemma tsw_ncol A B : tsw A B -> ncol A = ncol B. Proof. intros [H _]. unfold ncol. rewrite H; auto. Qed.
Lemma tsw_order A B : tsw A B -> order A = order B. Proof. intros [H _]. unfold order. rewrite H; auto. Qed.
Lemma tsim_order A B : tsim A B -> order A = order B. Proof. unfold tsim, order. intros ->; auto. Qed.
Lemma tsw_sim A B : tsw A B -> tsim A B. Proof. intros [H _]; auto. Qed.
Lemma tab_wf' {N : num} ls (f : list nat -> N) : wf (tabulate ls f).
Proof. apply tabulate_wf. Qed.
Lemma tsw_zeros ls : tsw (zeros ls) (zeros ls).
Proof. repeat split; apply tab_wf'. Qed.

(** ** einsum statements *)
Definition fsim (p : T1 * str) (q : T2 * str) : Prop := tsim (fst p) (fst q) /\ snd p = snd q.
Definition bsim (p : T1 * buf Z) (q : T2 * buf Z) : Prop := tsim (fst p) (fst q) /\ snd p = snd q.
Definition termsim (t : term N1) (t' : term N2) : Prop := Forall2 fsim (facs t) (facs t').
Lemma dims_sim fs fs' : Forall2 fsim fs fs' -> dims fs = dims fs'.
Proof. induction 1 as [|p q fs fs' [H1 H2] _ IH]; cbn [dims flat_map]; auto. unfold dims in IH. rewrite IH, H2, H1. auto. Qed.
Lemma lengths_ok_sim fs fs' : Forall2 fsim fs fs' -> lengths_ok fs = lengths_ok fs'.
Proof.
  induction 1 as [|p q fs fs' [H1 H2] _ IH]; cbn [lengths_ok forallb]; auto. unfold lengths_ok in IH.
  rewrite IH, H2, (tsim_order _ _ H1). auto.
Qed.
Lemma assign_sim acc C C' s ts ts' : tsim C C' -> Forall2 termsim ts ts' -> osim tsw (assign acc C s ts) (assign acc C' s ts').
Proof.
  intros HC Ht. unfold assign. rewrite <- (tsim_order _ _ HC).
  replace (forallb (term_ok C' s) ts') with (forallb (term_ok C s) ts).
  - destruct (_ && _); [|apply osim_err]. apply osim_ok. split; [exact HC|]. split; apply tab_wf'.
  - induction Ht as [|t t' ts ts' H _ IH]; cbn [forallb]; auto. rewrite IH. f_equal. unfold term_ok.
    rewrite (lengths_ok_sim _ _ H). f_equal. f_equal. apply dims_sim. constructor; auto. split; auto.
Qed.
Lemma tixs_sim fs fs' : Forall2 bsim fs fs' -> osim (Forall2 fsim) (tixs fs) (tixs fs').
Proof.
  induction 1 as [|[A s] [B s'] fs fs' [H1 H2] _ IH]; cbn [tixs]; [apply osim_ok; constructor|]. cbn [fst snd] in *. subst s'.
  unfold tix. rewrite (tsim_order _ _ H1).
  apply (osim_bind fsim). { apply osim_bind_same. intros a _. apply osim_ok. split; auto. }
  intros p q Hpq. apply (osim_bind (Forall2 fsim)); auto. intros; apply osim_ok; constructor; auto.
Qed.
Lemma assign_b_sim C C' s fs fs' : tsim C C' -> Forall2 bsim fs fs' -> osim tsw (assign_b C s fs) (assign_b C' s fs').
Proof.
  intros HC Hf. unfold assign_b. rewrite (tsim_order _ _ HC). apply osim_bind_same. intros sC _.
  apply (osim_bind (Forall2 fsim)); [apply tixs_sim; auto|]. intros ps qs Hpq. apply assign_sim; auto.
Qed.
Lemma new_tensor_sim n b : osim tsw (@new_tensor N1 n b) (@new_tensor N2 n b).
Proof. unfold new_tensor. apply osim_bind_same. intros. apply osim_ok, tsw_zeros. Qed.

(** ** lists and maps of tensors *)
Notation lsim := (Forall2 tsw).
Lemma lget_sim W W' i : lsim W W' -> osim tsw (lget W i) (lget W' i).
Proof.
  intros H. revert i. induction H; intros i b; destruct i; cbn; try discriminate.
  - intros [= <-]. eauto.
  - apply IHForall2.
Qed.
Lemma lset_sim W W' i A B : lsim W W' -> tsw A B -> lsim (lset W i A) (lset W' i B).
Proof. intros H HA. revert i. induction H; intros [|i]; cbn; constructor; auto. Qed.
Lemma lsim_length W W' : lsim W W' -> length W = length W'.
Proof. induction 1; cbn; congruence. Qed.
Lemma lput_sim W W' i A B : lsim W W' -> tsw A B -> osim lsim (lput W i A) (lput W' i B).
Proof.
  intros H HA. unfold lput. rewrite (lsim_length _ _ H). destruct (_ <? _); [|apply osim_err]. apply osim_ok, lset_sim; auto.
Qed.
Definition msim (m : smap T1) (m' : smap T2) : Prop :=
  forall k, match m k, m' k with Some A, Some B => tsw A B | None, None => True | _, _ => False end.
Lemma msim_put m m' k A B : msim m m' -> tsw A B -> msim (sput m k A) (sput m' k B).
Proof. intros H HA k'. unfold sput. destruct (str_eqb k' k); auto. apply H. Qed.
Lemma msim_empty : msim sempty sempty.
Proof. intros k. exact I. Qed.
Lemma msim_tget m m' k : msim m m' -> tsim (tget m k) (tget m' k).
Proof. intros H. specialize (H k). unfold tget. destruct (m k), (m' k); try contradiction; [apply tsw_sim; auto|reflexivity]. Qed.

End Par.
Notation lsim := (Forall2 tsw).
#[global] Hint Resolve tsw_sim tsw_zeros msim_empty msim_tget : par.
#[global] Hint Extern 1 (tsim ?A ?B) => assumption : par.

(** ** tactics: walk through two copies of the same code *)
Ltac facs_tac := repeat first [apply Forall2_nil | apply Forall2_cons]; try (split; cbn [fst snd]; [|reflexivity]); unfold termsim; cbn [facs prodt];
  repeat first [apply Forall2_nil | apply Forall2_cons]; try (split; cbn [fst snd]; [|reflexivity]); auto with par.
Ltac rw_dims H := first [ rewrite (tsw_nrow _ _ H) | idtac ]; first [ rewrite (tsw_ncol _ _ H) | idtac ];
  first [ rewrite (tsw_order _ _ H) | idtac ]; first [rewrite (tsw_lens _ _ H)| idtac].
Ltac pleaf := cbv beta zeta;
  lazymatch goal with
  | |- osim _ (bind ?x _) (bind ?y _) =>
    lazymatch x with
    | lget ?W ?i => first [ (let a := fresh "a" in let E := fresh "E" in apply osim_bind_same; intros a E)
                     | (let a := fresh "Ta" in let b := fresh "Tb" in let H := fresh "HT" in
                       eapply (osim_bind tsw); [apply lget_sim; solve [eauto with par]|intros a b H; cbv beta; rw_dims H]) ]
    | lput _ _ _ => (let a := fresh "la" in let b := fresh "lb" in let H := fresh "HL" in
                       eapply osim_bind; [apply lput_sim; solve [eauto with par]|intros a b H])
    | assign _ _ _ _ => (let a := fresh "Ta" in let b := fresh "Tb" in let H := fresh "HT" in
                       eapply osim_bind; [apply assign_sim; [solve [eauto with par] | solve [facs_tac]]|intros a b H; cbv beta; rw_dims H])
    | assign_b _ _ _ => (let a := fresh "Ta" in let b := fresh "Tb" in let H := fresh "HT" in
                       eapply osim_bind; [apply assign_b_sim; [solve [eauto with par] | solve [facs_tac]]|intros a b H; cbv beta; rw_dims H])
    | new_tensor _ _ => (let a := fresh "Ta" in let b := fresh "Tb" in let H := fresh "HT" in
                       eapply osim_bind; [apply new_tensor_sim|intros a b H; cbv beta; rw_dims H])
    | _ => (let a := fresh "a" in let E := fresh "E" in apply osim_bind_same; intros a E)
    end
  | |- osim _ (assign _ _ _ _) _ => apply assign_sim; [solve [eauto with par] | solve [facs_tac]]
  | |- osim _ (assign_b _ _ _) _ => apply assign_b_sim; [solve [eauto with par] | solve [facs_tac]]
  | |- osim _ (lput _ _ _) _ => apply lput_sim; solve [eauto with par]
  | |- osim eq ?x ?x => apply osim_refl
  end.
Ltac pfor := (* a loop over a buffer with equal states *)
  (eapply (osim_bind eq); [apply (for_sim eq); [intros ? ? ? _ ->; repeat pleaf | reflexivity] | intros ? ? ->]).

Section Par2.
Context {N1 N2 : num}.
Notation T1 := (tensor N1).
Notation T2 := (tensor N2).

Lemma build_V_step_sim (W : list T1) (W' : list T2) K i V V' sq : lsim W W' -> tsw V V' ->
  osim (prodR tsw eq) (build_V_step W K i (V, sq)) (build_V_step W' K i (V', sq)).
Proof.
  intros HW HV. unfold build_V_step. pfor. do 12 pleaf. apply osim_ok. split; auto.
Qed.
Lemma build_V_sim (W : list T1) (W' : list T2) o : lsim W W' -> osim tsw (build_V W o) (build_V W' o).
Proof.
  intros HW. unfold build_V. pleaf. eapply (osim_bind (prodR tsw eq)).
  { apply for_sim; [|split; auto]. intros j [? ?] [? ?] _ [? ?]; cbn [fst snd] in *; subst. apply build_V_step_sim; auto. }
  intros [? ?] [? ?] [? ?]; cbn [fst snd] in *; subst. pfor. pleaf. pleaf. pleaf. destruct a0 as [st sq]. pleaf. pleaf. pleaf. pleaf. pleaf.
Qed.

Notation st4 := (prodR (prodR (prodR tsw eq) eq) eq).
Ltac dst4 := intros [[[? ?] ?] ?] [[[? ?] ?] ?] [[[? ?] ?] ?]; cbn [fst snd] in *; subst.
Lemma dt_top_step_sim (V : T1) (V' : T2) W W' K par sib st j a b : tsw V V' -> lsim W W' ->
  st4 a b -> osim st4 (dt_top_step V W K par sib st j a) (dt_top_step V' W' K par sib st j b).
Proof.
  intros HV HW. revert a b. intros [[[F ?] ?] ?] [[[F' ?] ?] ?] [[[HF ?] ?] ?]; cbn [fst snd] in *; subst.
  unfold dt_top_step. rewrite (tsw_order _ _ HV), (tsw_order _ _ HF), (tsw_lens _ _ HV).
  repeat pleaf. apply osim_ok. split; [split; [split|]|]; auto.
Qed.
Lemma dt_top_sim (V : T1) (V' : T2) W W' K par sib : tsw V V' -> lsim W W' ->
  osim tsw (dt_top V W K par sib) (dt_top V' W' K par sib).
Proof.
  intros HV HW. unfold dt_top. rewrite (tsw_order _ _ HV), (tsw_lens _ _ HV).
  repeat pleaf. eapply (osim_bind st4).
  - apply for_sim; [|split; [split; [split|]|]; auto]. intros. apply dt_top_step_sim; auto.
  - dst4. apply osim_ok; auto.
Qed.
Lemma dt_low_step_sim (P : T1) (P' : T2) W W' K par sib st j a b : tsw P P' -> lsim W W' ->
  st4 a b -> osim st4 (dt_low_step P W K par sib st j a) (dt_low_step P' W' K par sib st j b).
Proof.
  intros HV HW. revert a b. intros [[[F ?] ?] ?] [[[F' ?] ?] ?] [[[HF ?] ?] ?]; cbn [fst snd] in *; subst.
  unfold dt_low_step. rewrite (tsw_order _ _ HV), (tsw_order _ _ HF), (tsw_lens _ _ HV).
  repeat pleaf. apply osim_ok. split; [split; [split|]|]; auto.
Qed.
Lemma dt_low_sim (P : T1) (P' : T2) W W' K par sib : tsw P P' -> lsim W W' ->
  osim tsw (dt_low P W K par sib) (dt_low P' W' K par sib).
Proof.
  intros HV HW. unfold dt_low. rewrite (tsw_order _ _ HV).
  repeat pleaf. eapply (osim_bind st4).
  - apply for_sim; [|split; [split; [split|]|]; auto]. intros. apply dt_low_step_sim; auto.
  - dst4. apply osim_ok; auto.
Qed.
Lemma map_DT_sim fuel parent sibling (V : T1) (V' : T2) W W' : tsw V V' -> lsim W W' -> forall mp mp' args, msim mp mp' ->
  osim msim (mttkrp_map_DT fuel mp parent sibling V W args) (mttkrp_map_DT fuel mp' parent sibling V' W' args).
Proof.
  intros HV HW. induction fuel as [|fuel IH]; intros mp mp' args Hm; cbn [mttkrp_map_DT]; [apply osim_err|].
  pleaf. assert (Ha := Hm args). destruct (mp args), (mp' args); try contradiction; [apply osim_ok; auto|].
  rewrite (tsw_order _ _ HV). destruct (_ || _).
  - apply (osim_bind tsw); [apply dt_top_sim; auto|]. intros. apply osim_ok, msim_put; auto.
  - apply (osim_bind msim).
    { assert (Hp := Hm (sget parent args)). destruct (mp (sget parent args)), (mp' (sget parent args)); try contradiction; [apply osim_ok; auto|]. apply IH; auto. }
    intros m1 m2 Hm12. apply (osim_bind tsw).
    { assert (Hp := Hm12 (sget parent args)). destruct (m1 (sget parent args)), (m2 (sget parent args)); try contradiction; cbn; [apply osim_ok; auto|apply osim_err]. }
    intros P P' HP. apply (osim_bind tsw); [apply dt_low_sim; auto|]. intros. apply osim_ok, msim_put; auto.
Qed.
Lemma dt_M_sim fuel parent sibling (V : T1) (V' : T2) W W' mp mp' i : tsw V V' -> lsim W W' -> msim mp mp' ->
  osim (prodR msim tsw) (dt_M fuel parent sibling V W mp i) (dt_M fuel parent sibling V' W' mp' i).
Proof.
  intros HV HW Hm. unfold dt_M. apply (osim_bind msim).
  { assert (Hp := Hm (sget parent [chr i])). destruct (mp (sget parent [chr i])), (mp' (sget parent [chr i])); try contradiction; [apply osim_ok; auto|].
    apply map_DT_sim; auto. }
  intros m1 m2 Hm12. pleaf. assert (HP := msim_tget _ _ (sget parent [chr i]) Hm12). set (P := tget m1 _) in *. set (P' := tget m2 _) in *. clearbody P P'.
  destruct (Nat.eqb _ 1).
  - repeat pleaf. apply osim_ok; split; auto.
  - repeat pleaf. destruct (if (a =? chr i)%Z then (a0, a1) else (a, a0)) as [a2 a3]. repeat pleaf. apply osim_ok; split; auto.
Qed.

(** ** contraction with the other modes one by one *)
Lemma KhatriRao_sim (M : T1) (M' : T2) V V' W W' index lH : tsw M M' -> tsw V V' -> lsim W W' ->
  osim tsw (KhatriRao_contract M V W index lH) (KhatriRao_contract M' V' W' index lH).
Proof.
  intros HM HV HW. unfold KhatriRao_contract. rewrite (tsw_order _ _ HV). repeat pleaf.
  eapply (osim_bind (prodR tsw eq)).
  - apply for_sim; [|split; auto]. intros j [F ?] [F' ?] _ [HF ?]; cbn [fst snd] in *; subst. rewrite (tsw_order _ _ HF).
    repeat pleaf. apply osim_ok; split; auto.
  - intros [? ?] [? ?] [? ?]; cbn [fst snd] in *; subst. pleaf.
Qed.
Lemma gradsubprob_sim (M : T1) (M' : T2) S S' W W' G G' : tsw M M' -> tsw S S' -> tsw W W' -> tsw G G' ->
  osim tsw (gradsubprob M S W G) (gradsubprob M' S' W' G').
Proof. intros. unfold gradsubprob. pleaf. Qed.
Lemma gram_index_sim (S : T1) (S' : T2) W W' o index : tsw S S' -> lsim W W' ->
  osim tsw (gram_index S W o index) (gram_index S' W' o index).
Proof.
  intros HS HW. unfold gram_index. repeat pleaf. apply for_sim; auto. intros j A B _ HAB. repeat pleaf.
Qed.
Lemma gradient_CP_sim (V : T1) (V' : T2) W W' G G' : tsw V V' -> lsim W W' -> lsim G G' ->
  osim lsim (gradient_CP V W G) (gradient_CP V' W' G').
Proof.
  intros HV HW HG. unfold gradient_CP. rewrite (tsw_order _ _ HV), (tsw_lens _ _ HV). repeat pleaf.
  apply (osim_bind (prodR (prodR lsim eq) tsw)).
  - apply for_sim; [|split; [split|]; cbn [fst snd]; auto with par]. intros i [[Ga ?] Sa] [[Gb ?] Sb] _ [[HGa ?] HS]; cbn [fst snd] in *; subst.
    repeat pleaf. destruct a2 as [index lH]. eapply osim_bind; [apply KhatriRao_sim; auto with par|]. intros M M' HM.
    eapply osim_bind; [apply gram_index_sim; eauto|]. intros S S' HS'. pleaf.
    eapply osim_bind; [apply gradsubprob_sim; eauto|]. intros g g' Hg. repeat pleaf. apply osim_ok; split; [split|]; auto.
  - intros [[Ga ?] Sa] [[Gb ?] Sb] [[HGa ?] HS]; cbn [fst snd] in *; subst. apply osim_ok; auto.
Qed.
Lemma Normalize_sim (W : list T1) (W' : list T2) o : lsim W W' -> osim lsim (Normalize W o) (Normalize W' o).
Proof.
  intros HW. unfold Normalize. apply (osim_bind numany).
  - apply for_sim; [|exact I]. intros. pleaf. apply osim_ok. exact I.
  - intros na nb _. apply for_sim; auto. intros j A B _ HAB. repeat pleaf.
Qed.
Lemma sumnorm_sim (G : list T1) (G' : list T2) o : lsim G G' -> osim numany (sumnorm o G) (sumnorm o G').
Proof.
  intros HG. unfold sumnorm. apply (osim_bind numany); [|intros; apply osim_ok; exact I].
  apply for_sim; [|exact I]. intros. pleaf. apply osim_ok. exact I.
Qed.
Lemma diffnorm_sim (V : T1) (V' : T2) W W' s : tsw V V' -> lsim W W' -> osim numany (diffnorm V W s) (diffnorm V' W' s).
Proof.
  intros HV HW. unfold diffnorm. rewrite (tsw_order _ _ HV). eapply osim_bind; [apply build_V_sim; auto|]. intros B B' HB.
  rewrite (tsw_order _ _ HB). repeat pleaf. apply osim_ok. exact I.
Qed.
Lemma mk_regul_sim R l l' : osim tsw (@mk_regul N1 R l) (@mk_regul N2 R l').
Proof. unfold mk_regul. pleaf. Qed.
Lemma mk_dW_sim (W : list T1) (W' : list T2) o : lsim W W' -> osim lsim (mk_dW W o) (mk_dW W' o).
Proof.
  intros HW. unfold mk_dW. apply for_sim; auto. intros j A B _ HAB. repeat pleaf. apply osim_ok. apply Forall2_app; auto.
Qed.
Lemma zero_dW_sim (W : list T1) (W' : list T2) o : lsim W W' -> osim lsim (zero_dW o W) (zero_dW o W').
Proof.
  intros HW. unfold zero_dW. apply for_sim; auto. intros j A B _ HAB. repeat pleaf.
Qed.
Lemma dw_count_sim (W : list T1) (W' : list T2) D D' o t t' : lsim W W' -> lsim D D' -> osim (fun _ _ => True) (dw_count o t W D) (dw_count o t' W' D').
Proof.
  intros HW HD. unfold dw_count. apply for_sim; auto. intros. repeat pleaf. apply osim_ok. exact I.
Qed.
Lemma dw_update_sim o t t' (W : list T1) (W' : list T2) D D' P P' : lsim W W' -> lsim D D' -> lsim P P' ->
  osim (prodR (prodR lsim lsim) (fun _ _ => True)) (dw_update o t W D P) (dw_update o t' W' D' P').
Proof.
  intros HW HD HP. unfold dw_update. apply for_sim; [|split; [split|]; auto].
  intros j [[? ?] ?] [[? ?] ?] _ [[? ?] _]; cbn [fst snd] in *. repeat pleaf. apply osim_ok; split; [split|]; auto.
Qed.
End Par2.
