(** Partial MTTKRPs: the meaning of every intermediate of the CP algorithms, and the
    single contraction step *)
From Coq Require Import List ZArith Lia Bool Arith Permutation Ring.
From Verif Require Import Base Num Tensor Spec PBase PTensor PSum.
Import ListNotations.

Section P.
Context {N : num} (RL : ring_laws N).
Let RT : ring_theory (@n0 N) n1 nadd nmul nsub nopp (@eq N) := RL.
Add Ring Nring : RT.
Local Open Scope num_scope.

Lemma sumc_all d s (f : list nat -> N) e :
  NoDup s -> sumc d s (fun e' => f (map e' s)) e = bigsum (all_idx (map d s)) f.
Proof.
  intros Hs. revert f e. induction Hs as [|c s Hc Hs IH]; intros f e; simpl.
  - ring.
  - rewrite (bigsum_flat_map RL).
    transitivity (bigsum (seq 0 (d c)) (fun i => bigsum (all_idx (map d s)) (fun t => f (i :: t)))).
    + apply bigsum_ext. intros i _. rewrite <- (IH (fun t => f (i :: t)) (upd e c i)).
      apply sumc_ext. intros e' H1 _. rewrite (H1 c Hc), upd_same. auto.
    + rewrite (bigsum_swap RL). apply bigsum_ext. intros t _. rewrite bigsum_map. auto.
Qed.

(** letters: ltr m is the letter of mode m, rk the rank letter, ord the order *)
Section Letters.
Context (d : Z -> nat) (ltr : nat -> Z) (rk : Z) (ord : nat).
Hypothesis ltr_inj : forall i j, i < ord -> j < ord -> ltr i = ltr j -> i = j.
Hypothesis rk_fresh : forall i, i < ord -> ltr i <> rk.
Definition letters := map ltr (seq 0 ord).

Lemma letters_nodup : NoDup letters.
Proof.
  apply NoDup_map_inj; [|apply seq_NoDup]. intros x y Hx Hy. apply in_seq in Hx, Hy. apply ltr_inj; lia.
Qed.
Lemma map_ltr_nodup ms : NoDup ms -> (forall m, In m ms -> m < ord) -> NoDup (map ltr ms).
Proof. intros H1 H2. apply NoDup_map_inj; auto. Qed.
Lemma in_map_ltr m ms : m < ord -> (forall m, In m ms -> m < ord) -> In (ltr m) (map ltr ms) -> In m ms.
Proof. intros Hm Hms H. apply in_map_iff in H as (m' & E & H). apply ltr_inj in E; subst; auto. Qed.
Lemma rk_notin ms : (forall m, In m ms -> m < ord) -> ~ In rk (map ltr ms).
Proof. intros H Hin. apply in_map_iff in Hin as (m & E & Hm). apply (rk_fresh m); auto. Qed.

(** the tensor V with the modes ms contracted with their factors *)
Definition PM (V : tensor N) (W : nat -> tensor N) (ms : list nat) (e : env) : N :=
  sumc d (map ltr ms)
    (fun e' => at_ V (map e' letters) * bigprod ms (fun m => el (W m) (e' (ltr m)) (e' rk))) e.

Lemma PM_body_env (V : tensor N) (W : nat -> tensor N) ms :
  envext (fun e' => at_ V (map e' letters) * bigprod ms (fun m => el (W m) (e' (ltr m)) (e' rk))).
Proof.
  intros e e' H. f_equal.
  - f_equal. apply map_ext. auto.
  - apply bigprod_ext. intros. rewrite !H. auto.
Qed.
Lemma PM_env V W ms : envext (PM V W ms).
Proof. apply sumc_envext. apply PM_body_env. Qed.
Lemma PM_perm V W ms ms' e : NoDup ms -> (forall m, In m ms -> m < ord) ->
  Permutation ms ms' -> PM V W ms e = PM V W ms' e.
Proof.
  intros H1 H2 Hp. unfold PM. rewrite (sumc_perm RL d (map ltr ms) (map ltr ms')).
  - apply sumc_ext. intros e' _ _. f_equal. apply (bigprod_perm RL). auto.
  - apply PM_body_env.
  - apply map_ltr_nodup; auto.
  - apply Permutation_map. auto.
Qed.
Lemma PM_ext V W W' ms e : (forall m, In m ms -> W m = W' m) -> PM V W ms e = PM V W' ms e.
Proof.
  intros H. unfold PM. apply sumc_ext. intros. f_equal. apply bigprod_ext. intros. rewrite H; auto.
Qed.
Lemma PM_nil V W e : PM V W [] e = at_ V (map e letters).
Proof. unfold PM. simpl. ring. Qed.

Lemma PM_cons V W m ms e : m < ord -> ~ In m ms -> (forall m, In m ms -> m < ord) ->
  PM V W (m :: ms) e = bigsum (seq 0 (d (ltr m)))
     (fun i => PM V W ms (upd e (ltr m) i) * el (W m) i (e rk)).
Proof.
  intros Hm Hn Hms. unfold PM at 1. simpl. apply bigsum_ext. intros i _.
  unfold PM.
  rewrite <- (sumc_mul_r RL). apply sumc_ext. intros e' H1 _.
  rewrite (H1 (ltr m)) by (intros ?; apply Hn; apply in_map_ltr; auto).
  rewrite upd_same.
  rewrite (H1 rk) by (apply rk_notin; auto).
  rewrite upd_other by (intros E; apply (rk_fresh m); auto). ring.
Qed.

Definition frep (A : tensor N) (m R : nat) : Prop := is_mat A (d (ltr m)) R.

Lemma el_rep (A : tensor N) a b r c : a <> b -> is_mat A r c -> d a = r -> d b = c ->
  rep d A [a; b] (fun e => el A (e a) (e b)).
Proof.
  intros Hab (H1 & H2) Ha Hb. split; [auto|split]. { simpl. rewrite H1, Ha, Hb. auto. }
  intros e He. reflexivity.
Qed.
Lemma el_env (A : tensor N) a b : envext (fun e => el A (e a) (e b)).
Proof. intros e e' H. rewrite !H. auto. Qed.

(** one contraction step *)
Lemma pm_step V W ms m A s sC C :
  rep d A s (PM V W ms) ->
  m < ord -> ~ In m ms -> (forall m, In m ms -> m < ord) ->
  is_mat (W m) (d (ltr m)) (d rk) ->
  In (ltr m) s -> (forall c, In c s -> c = rk \/ In c letters) ->
  NoDup sC -> (forall c, In c sC <-> (In c s /\ c <> ltr m) \/ c = rk) ->
  lens C = map d sC ->
  exists B, assign false C sC [prodt [(A, s); (W m, [ltr m; rk])]] = Ok B /\
            rep d B sC (PM V W (m :: ms)).
Proof.
  intros HA Hm Hn Hms HW Hin Hs HsC HC HlC.
  set (fg := [((A, s), PM V W ms); ((W m, [ltr m; rk]), fun e => el (W m) (e (ltr m)) (e rk))]).
  destruct (contract_rep RL d C sC fg [ltr m]) as (B & E & R).
  - auto.
  - auto.
  - constructor; [auto|constructor; [|constructor]]. simpl.
    eapply el_rep; eauto.
  - constructor; auto. constructor.
  - intros c. simpl. rewrite in_app_iff, HC. simpl. split.
    + intros [<-|[]]. split; auto. intros [[_ H]|H]; [auto|]. apply (rk_fresh m); auto.
    + intros [H H']. left. destruct (Z.eq_dec (ltr m) c) as [|Hne]; auto. exfalso. apply H'.
      destruct H as [H|[H|[H|[]]]]; [left; auto|congruence|right; auto].
  - intros q [<-|[<-|[]]]; simpl; [apply PM_env|apply el_env].
  - exists B. split; [exact E|]. eapply rep_ext; [exact R|]. intros e He. cbn [sumc].
    rewrite PM_cons by auto. apply bigsum_ext. intros i Hi. simpl.
    rewrite upd_same, upd_other by (intros E'; apply (rk_fresh m); auto). ring.
Qed.

Lemma rep_start (V : tensor N) W : wf V -> lens V = map d letters -> rep d V letters (PM V W []).
Proof. intros H1 H2. split; [auto|split; [auto|]]. intros. rewrite PM_nil. auto. Qed.

(** the end: all modes but n contracted *)
Lemma map_env_nth (e : env) m : m < ord -> nth m (map e letters) 0%nat = e (ltr m).
Proof.
  intros H. unfold letters. rewrite map_map.
  rewrite (nth_indep _ 0%nat (e (ltr 0))) by (rewrite map_length, seq_length; auto).
  rewrite (map_nth (fun i => e (ltr i))), seq_nth; auto.
Qed.

Lemma others_in n o m : In m (others n o) <-> m < o /\ m <> n.
Proof.
  unfold others. rewrite filter_In, in_seq. destruct (Nat.eqb_spec m n); simpl; split; intros; lia.
Qed.
Lemma others_nodup n o : NoDup (others n o).
Proof. apply NoDup_filter, seq_NoDup. Qed.
Lemma others_perm n o : n < o -> Permutation (n :: others n o) (seq 0 o).
Proof.
  intros H. apply NoDup_Permutation.
  - constructor; [|apply others_nodup]. rewrite others_in. lia.
  - apply seq_NoDup.
  - intros m. simpl. rewrite others_in, in_seq. destruct (Nat.eq_dec m n); lia.
Qed.

Lemma PM_mttkrp V W n e :
  n < ord -> lens V = map d letters -> e (ltr n) < d (ltr n) ->
  PM V (fac W) (others n ord) e = mttkrp_at V W n (e (ltr n)) (e rk).
Proof.
  intros Hn HV Hen. unfold mttkrp_at.
  assert (Ho : order V = ord) by (unfold order; rewrite HV; unfold letters; rewrite !map_length, seq_length; auto).
  rewrite Ho, HV, (bigsum_filter RL).
  set (F := fun x => if Nat.eqb (nth n x 0%nat) (e (ltr n)) then
       at_ V x * bigprod (others n ord) (fun m => el (fac W m) (nth m x 0%nat) (e rk)) else n0).
  rewrite <- (sumc_all d letters F e letters_nodup).
  rewrite (sumc_perm RL d letters (ltr n :: map ltr (others n ord))).
  - simpl. rewrite (bigsum_single RL _ _ (e (ltr n))).
    + unfold PM.
      transitivity (sumc d (map ltr (others n ord))
        (fun e' => at_ V (map e' letters) * bigprod (others n ord) (fun m => el (fac W m) (e' (ltr m)) (e' rk)))
        (upd e (ltr n) (e (ltr n)))).
      { apply sumc_env; [apply PM_body_env|]. intros c. unfold upd. destruct (Z.eqb_spec c (ltr n)); subst; auto. }
      apply sumc_ext. intros e' H1 _. unfold F.
      rewrite map_env_nth by auto.
      rewrite (H1 (ltr n)), upd_same, Nat.eqb_refl.
      2:{ intros Hin. apply in_map_ltr in Hin; auto. apply others_in in Hin. lia.
          intros m Hm'. apply others_in in Hm'. lia. }
      f_equal. apply bigprod_ext. intros m Hm. apply others_in in Hm.
      rewrite map_env_nth by lia. rewrite (H1 rk).
      * rewrite upd_other by (intros E; apply (rk_fresh n); auto). auto.
      * apply rk_notin. intros m' Hm'. apply others_in in Hm'. lia.
    + apply seq_NoDup.
    + apply in_seq. lia.
    + intros i Hi Hne. rewrite <- (sumc_zero RL d (map ltr (others n ord)) (upd e (ltr n) i)). apply sumc_ext.
      intros e' H1 _. unfold F. rewrite map_env_nth by auto. rewrite (H1 (ltr n)), upd_same.
      * destruct (Nat.eqb_spec i (e (ltr n))); auto. congruence.
      * intros Hin. apply in_map_ltr in Hin; auto. apply others_in in Hin. lia.
        intros m Hm'. apply others_in in Hm'. lia.
  - intros e1 e2 H. f_equal. apply map_ext. auto.
  - apply letters_nodup.
  - unfold letters. rewrite <- (Permutation_map ltr (others_perm n ord Hn)). simpl. auto.
Qed.

Lemma rep_mttkrp V W n ms A :
  rep d A [ltr n; rk] (PM V (fac W) ms) -> n < ord -> lens V = map d letters ->
  Permutation ms (others n ord) ->
  A = mttkrp V W n (d rk).
Proof.
  intros (H1 & H2 & H3) Hn HV Hp.
  assert (Hnth : nth n (lens V) 0%nat = d (ltr n)).
  { rewrite HV. unfold letters. rewrite map_map.
    rewrite (nth_indep _ 0%nat (d (ltr 0))) by (rewrite map_length, seq_length; auto).
    rewrite (map_nth (fun i => d (ltr i))), seq_nth; auto. }
  apply tensor_ext; auto.
  - apply tabulate_wf.
  - simpl. rewrite H2, Hnth. auto.
  - intros idx Hi. rewrite H2 in Hi. simpl in Hi. unfold mttkrp. rewrite Hnth.
    rewrite at_tabulate by auto.
    destruct (inb_env d [ltr n; rk] idx) as (e & <- & He); auto.
    { constructor; [intros [E|[]]; apply (rk_fresh n); auto|]. constructor; auto. constructor. }
    rewrite H3 by auto. simpl.
    rewrite (PM_perm V (fac W) ms (others n ord)); auto.
    + apply PM_mttkrp; auto. apply He. left; auto.
    + eapply Permutation_NoDup; [symmetry; eauto|apply others_nodup].
    + intros m Hm. apply (Permutation_in _ Hp) in Hm. apply others_in in Hm. lia.
Qed.
End Letters.
End P.
