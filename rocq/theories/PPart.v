(** Partial MTTKRPs with an arbitrary set of remaining modes *)
From Coq Require Import List ZArith Lia Bool Arith Permutation Ring.
From Verif Require Import Base Num Tensor Spec PBase PTensor PSum PMttkrp.
Import ListNotations.

Lemma existsb_nat m l : existsb (Nat.eqb m) l = true <-> In m l.
Proof.
  rewrite existsb_exists. split.
  - intros (x & Hx & E). apply Nat.eqb_eq in E. subst. auto.
  - intros H. exists m. split; auto. apply Nat.eqb_refl.
Qed.
Lemma outside_in rest o m : In m (outside rest o) <-> m < o /\ ~ In m rest.
Proof.
  unfold outside. rewrite filter_In, in_seq. pose proof (existsb_nat m rest) as H.
  destruct (existsb (Nat.eqb m) rest); cbn [negb]; split; intros [H1 H2]; split; try lia; try discriminate; auto.
  - exfalso. apply H2, H. auto.
  - intros Hi. apply H in Hi. discriminate.
Qed.
Lemma outside_nodup rest o : NoDup (outside rest o).
Proof. apply NoDup_filter, seq_NoDup. Qed.
Lemma outside_perm rest o : NoDup rest -> (forall m, In m rest -> m < o) ->
  Permutation (rest ++ outside rest o) (seq 0 o).
Proof.
  intros H1 H2. apply NoDup_Permutation.
  - apply NoDup_app_intro; auto; [apply outside_nodup|]. intros x Hx Hy. apply outside_in in Hy. tauto.
  - apply seq_NoDup.
  - intros m. rewrite in_app_iff, outside_in, in_seq. split.
    + intros [H|H]; [apply H2 in H|]; lia.
    + intros H. destruct (in_dec Nat.eq_dec m rest); [left; auto|right; split; [lia|auto]].
Qed.
Lemma outside_one n o : outside [n] o = others n o.
Proof. unfold outside, others. apply filter_ext. intros m. cbn. rewrite orb_false_r. auto. Qed.

Section P.
Context {N : num} (RL : ring_laws N).
Let RT : ring_theory (@n0 N) n1 nadd nmul nsub nopp (@eq N) := RL.
Add Ring Nring : RT.
Local Open Scope num_scope.

Lemma sumc_delta d cs (t : env) (f : env -> N) : NoDup cs -> envext f -> (forall c, In c cs -> (t c < d c)%nat) ->
  forall e, (forall c, ~ In c cs -> e c = t c) ->
  sumc d cs (fun e' => if forallb (fun c => Nat.eqb (e' c) (t c)) cs then f e' else n0) e = f t.
Proof.
  intros Hn Hf. induction Hn as [|c cs Hc Hn IH]; intros Ht e He.
  - cbn. apply Hf. intros. apply He. auto.
  - cbn [sumc]. rewrite (bigsum_single RL _ _ (t c)).
    + transitivity (sumc d cs (fun e' => if forallb (fun c => Nat.eqb (e' c) (t c)) cs then f e' else n0) (upd e c (t c))).
      * apply sumc_ext. intros e' H1 _. cbn [forallb]. rewrite (H1 c Hc), upd_same, Nat.eqb_refl. reflexivity.
      * apply IH.
        -- intros. apply Ht. right. auto.
        -- intros c' Hc'. unfold upd. destruct (Z.eqb_spec c' c); subst; auto. apply He. intros [H|H]; auto.
    + apply seq_NoDup.
    + apply in_seq. specialize (Ht c (or_introl eq_refl)). lia.
    + intros i Hi Hne. transitivity (sumc d cs (fun _ => n0 : N) (upd e c i)); [|apply (sumc_zero RL)]. apply sumc_ext.
      intros e' H1 _. cbn [forallb]. rewrite (H1 c Hc), upd_same. destruct (Nat.eqb_spec i (t c)); [congruence|]. auto.
Qed.

Section Letters.
Context (d : Z -> nat) (ltr : nat -> Z) (rk : Z) (ord : nat).
Hypothesis ltr_inj : forall i j, (i < ord)%nat -> (j < ord)%nat -> ltr i = ltr j -> i = j.
Hypothesis rk_fresh : forall i, (i < ord)%nat -> ltr i <> rk.

Lemma PM_partial (V : tensor N) W rest (e : env) :
  NoDup rest -> (forall m, In m rest -> m < ord)%nat -> lens V = map d (letters ltr ord) ->
  (forall m, In m rest -> e (ltr m) < d (ltr m))%nat ->
  PM d ltr rk ord V (fac W) (outside rest ord) e = partial_at V W rest (map (fun m => e (ltr m)) rest) (e rk).
Proof.
  intros Hn Hr HV He. unfold partial_at.
  assert (Ho : order V = ord) by (unfold order; rewrite HV; unfold letters; rewrite !map_length, seq_length; auto).
  rewrite Ho, HV, (bigsum_filter RL).
  set (pred := fun x : list nat => forallb (fun p => Nat.eqb (nth (fst p) x 0%nat) (snd p)) (combine rest (map (fun m => e (ltr m)) rest))).
  set (F := fun x => if pred x then
       at_ V x * bigprod (outside rest ord) (fun m => el (fac W m) (nth m x 0%nat) (e rk)) else n0).
  change (PM d ltr rk ord V (fac W) (outside rest ord) e = bigsum (all_idx (map d (letters ltr ord))) F).
  rewrite <- (sumc_all RL d (letters ltr ord) F e (letters_nodup ltr ord ltr_inj)).
  rewrite (sumc_perm RL d (letters ltr ord) (map ltr rest ++ map ltr (outside rest ord))).
  - rewrite sumc_app.
    assert (Hout : forall m, In m (outside rest ord) -> (m < ord)%nat) by (intros m Hm; apply outside_in in Hm; tauto).
    rewrite <- (sumc_delta d (map ltr rest) e (PM d ltr rk ord V (fac W) (outside rest ord))
       (map_ltr_nodup ltr ord ltr_inj rest Hn Hr) (PM_env d ltr rk ord V (fac W) _)) with (e := e).
    2:{ intros c Hc. apply in_map_iff in Hc as (m & <- & Hm). apply He. auto. }
    2:{ auto. }
    apply sumc_ext. intros e1 H1 _.
    assert (Hp : forall e2, (forall c, ~ In c (map ltr (outside rest ord)) -> e2 c = e1 c) ->
        pred (map e2 (letters ltr ord)) = forallb (fun c => Nat.eqb (e1 c) (e c)) (map ltr rest)).
    { intros e2 H2. unfold pred. clear -H2 Hr ltr_inj Hout rk_fresh.
      assert (Hx : forall rs, (forall m, In m rs -> (m < ord)%nat /\ ~ In m (outside rest ord)) ->
         forallb (fun p => Nat.eqb (nth (fst p) (map e2 (letters ltr ord)) 0%nat) (snd p)) (combine rs (map (fun m => e (ltr m)) rs))
         = forallb (fun c => Nat.eqb (e1 c) (e c)) (map ltr rs)).
      { induction rs as [|r rs IH]; intros H; auto. cbn [map combine forallb fst snd].
        destruct (H r (or_introl eq_refl)) as [Hr1 Hr2]. rewrite map_env_nth by auto.
        rewrite H2.
        2:{ intros Hin. apply Hr2. apply in_map_ltr with (ord := ord) (ltr := ltr); auto. }
        rewrite IH; auto. intros. apply H. right. auto. }
      apply Hx. intros m Hm. split; [apply Hr; auto|].
      intros Hx2. apply outside_in in Hx2. tauto. }
    transitivity (if forallb (fun c => Nat.eqb (e1 c) (e c)) (map ltr rest) then
         sumc d (map ltr (outside rest ord)) (fun e2 => at_ V (map e2 (letters ltr ord)) *
            bigprod (outside rest ord) (fun m => el (fac W m) (nth m (map e2 (letters ltr ord)) 0%nat) (e rk))) e1
       else n0).
    + destruct (forallb _ (map ltr rest)); auto. unfold PM. apply sumc_ext. intros e2 H2 _. f_equal.
      apply bigprod_ext. intros m Hm. rewrite map_env_nth by auto. f_equal.
      rewrite H2 by (apply (rk_notin ltr rk ord rk_fresh); auto). apply H1. apply (rk_notin ltr rk ord rk_fresh). auto.
    + destruct (forallb _ (map ltr rest)) eqn:Eb.
      * apply sumc_ext. intros e2 H2 _. unfold F. rewrite Hp by auto. auto.
      * transitivity (sumc d (map ltr (outside rest ord)) (fun _ => n0 : N) e1); [symmetry; apply (sumc_zero RL)|]. apply sumc_ext. intros e2 H2 _. unfold F. rewrite Hp by auto. auto.
  - intros e1 e2 H. f_equal. apply map_ext. auto.
  - apply letters_nodup. auto.
  - unfold letters. rewrite <- map_app. apply Permutation_map. symmetry. apply outside_perm; auto.
Qed.

Lemma rep_partial (V : tensor N) W rest ms A :
  rep d A (map ltr rest ++ [rk]) (PM d ltr rk ord V (fac W) ms) -> NoDup rest -> (forall m, In m rest -> m < ord)%nat ->
  lens V = map d (letters ltr ord) -> Permutation ms (outside rest ord) ->
  A = partial_mttkrp V W rest (d rk).
Proof.
  intros (H1 & H2 & H3) Hn Hr HV Hp.
  assert (Hnth : forall n, (n < ord)%nat -> nth n (lens V) 0%nat = d (ltr n)).
  { intros n H. rewrite HV. unfold letters. rewrite map_map.
    rewrite (nth_indep _ 0%nat (d (ltr 0))) by (rewrite map_length, seq_length; auto).
    rewrite (map_nth (fun i => d (ltr i))), seq_nth; auto. }
  assert (El : map (fun m => nth m (lens V) 0%nat) rest ++ [d rk] = map d (map ltr rest ++ [rk])).
  { rewrite map_app, map_map. cbn. f_equal. apply map_ext_in. auto. }
  apply tensor_ext; auto.
  - apply tabulate_wf.
  - cbn. rewrite H2, El. auto.
  - intros idx Hi. rewrite H2 in Hi. unfold partial_mttkrp. rewrite El. rewrite at_tabulate by auto.
    destruct (inb_env d (map ltr rest ++ [rk]) idx) as (e & <- & He); auto.
    { apply NoDup_app_intro.
      - apply map_ltr_nodup with (ord := ord); auto.
      - repeat constructor. auto.
      - intros x Hx [<-|[]]. apply (rk_notin ltr rk ord rk_fresh rest) in Hx; auto. }
    rewrite H3 by auto. rewrite map_app, map_map. cbn [map].
    rewrite firstn_app, map_length, Nat.sub_diag. cbn [firstn]. rewrite app_nil_r, firstn_all2 by (rewrite map_length; auto).
    rewrite app_nth2 by (rewrite map_length; auto). rewrite map_length, Nat.sub_diag. cbn [nth].
    rewrite (PM_perm RL d ltr rk ord ltr_inj V (fac W) ms (outside rest ord)); auto.
    + apply PM_partial; auto. intros m Hm. apply He. apply in_or_app. left. apply in_map. auto.
    + eapply Permutation_NoDup; [symmetry; eauto|apply outside_nodup].
    + intros m Hm. apply (Permutation_in _ Hp) in Hm. apply outside_in in Hm. lia.
Qed.
End Letters.

Lemma partial_one (V : tensor N) W n R : partial_mttkrp V W [n] R = mttkrp V W n R.
Proof.
  unfold partial_mttkrp, mttkrp. cbn [map app length]. apply tabulate_ext. intros idx Hi.
  unfold partial_at, mttkrp_at. rewrite outside_one.
  inversion Hi as [|? ? ? ? Hx Hi' E]; subst. cbn [firstn nth combine].
  erewrite filter_ext; [reflexivity|]. intros z. cbn. apply andb_true_r.
Qed.
End P.
