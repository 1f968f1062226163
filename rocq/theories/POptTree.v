(** Evaluating the position tree of the optimizers: every node is an exact partial MTTKRP *)
From Coq Require Import List ZArith Lia Bool Arith Permutation Ring.
From Verif Require Import Base Num Tensor Spec Spec3 MCommon MCP MOpt PBase PTensor PSum PMttkrp PPart PMat PKhatri PGrad PMatAlg PResid
  PSolve PTree PDT PDTSweep PALS PropPP POpt.
Import ListNotations.

(** cyclic positions: position p holds mode l+1+p (mod o) *)
Definition cmode (o l p : nat) : nat := if p + l + 1 <? o then p + l + 1 else p + l + 1 - o.
Definition cpos (o l m : nat) : nat := if l <? m then m - l - 1 else m + o - 1 - l.
Ltac cyc := unfold cmode, cpos; repeat match goal with |- context [?a <? ?b] => destruct (Nat.ltb_spec a b) end; try lia.
Lemma cmode_lt o l p : l < o -> p < o -> cmode o l p < o. Proof. intros. cyc. Qed.
Lemma cpos_lt o l m : l < o -> m < o -> cpos o l m < o. Proof. intros. cyc. Qed.
Lemma cpos_cmode o l p : l < o -> p < o -> cpos o l (cmode o l p) = p. Proof. intros. cyc. Qed.
Lemma cmode_cpos o l m : l < o -> m < o -> cmode o l (cpos o l m) = m. Proof. intros. cyc. Qed.
Lemma cmode_ne o l p : l < o -> p < o - 1 -> cmode o l p <> l. Proof. intros. cyc. Qed.
Lemma cmode_inj o l p q : l < o -> p < o -> q < o -> cmode o l p = cmode o l q -> p = q.
Proof. intros. rewrite <- (cpos_cmode o l p), <- (cpos_cmode o l q) by auto. congruence. Qed.
Lemma after_cmode o l : l < o -> after o l = map (cmode o l) (seq 0 (o - 1)).
Proof.
  intros H. unfold after. replace (o - 1) with ((o - 1 - l) + l) at 2 by lia. rewrite seq_app, map_app. f_equal.
  - rewrite <- (map_id (seq (l + 1) _)). replace (l + 1) with (0 + (l + 1)) at 1 by lia.
    remember (o - 1 - l) as k. assert (forall a, a + k <= o - 1 - l -> map (fun x => x) (seq (a + (l + 1)) k) = map (cmode o l) (seq a k)) as Hk.
    { clear Heqk. induction k; intros a Ha; cbn; auto. f_equal; [cyc|]. apply (IHk (S a)). lia. }
    apply Hk. lia.
  - cbn. rewrite <- (map_id (seq 0 l)). 
    assert (forall k a, a + k <= l -> map (fun x => x) (seq a k) = map (cmode o l) (seq (a + (o - 1 - l)) k)) as Hk.
    { induction k; intros a Ha; cbn; auto. f_equal; [cyc|]. apply (IHk (S a)). lia. }
    rewrite (Hk l 0) by lia. cbn. auto.
Qed.
Lemma after_length o l : l < o -> length (after o l) = o - 1.
Proof. intros. rewrite after_cmode, map_length, seq_length; auto. Qed.
Lemma after_nth o l p : l < o -> p < o - 1 -> nth p (after o l) 0 = cmode o l p.
Proof. intros. rewrite after_cmode by auto. rewrite (nth_map_lt _ _ _ 0) by (rewrite seq_length; auto). rewrite seq_nth by auto. auto. Qed.

(** ** index vectors *)
Lemma fill_pair_ok (ix : list nat) lo n j : j + n <= length ix ->
  exists ix', for_ lo (lo + n) (fun i st => let '(ix, j) := st in ix <- lput ix j i ;; Ok (ix, j + 1)) (ix, j) = Ok (ix', j + n) /\
    length ix' = length ix /\ forall k, nth k ix' 0 = if (j <=? k) && (k <? j + n) then lo + (k - j) else nth k ix 0.
Proof.
  intros Hj. destruct (for_inv (fun i (st : list nat * nat) => length (fst st) = length ix /\ snd st = j + (i - lo) /\
      forall k, nth k (fst st) 0 = if (j <=? k) && (k <? j + (i - lo)) then lo + (k - j) else nth k ix 0)
    (fun i st => let '(ix, j) := st in ix <- lput ix j i ;; Ok (ix, j + 1)) lo (lo + n) (ix, j)) as ([ix' j'] & E & H1 & H2 & H3).
  - lia.
  - cbn [fst snd]. split; [auto|]. split; [lia|]. intros k. destruct (Nat.leb_spec j k), (Nat.ltb_spec k (j + (lo - lo))); cbn [andb]; auto; exfalso; lia.
  - intros i [x y] Hi (H1 & H2 & H3). cbn [fst snd] in *. rewrite lput_ok by lia. cbn [bind]. eexists; split; [reflexivity|].
    cbn [fst snd]. rewrite lset_length. split; auto. split; [lia|]. intros k. rewrite lset_nth by lia. specialize (H3 k). subst y.
    destruct (Nat.eqb_spec k (j + (i - lo))) as [->|Hne].
    + destruct (Nat.leb_spec j (j + (i - lo))), (Nat.ltb_spec (j + (i - lo)) (j + (S i - lo))); cbn [andb]; try lia.
    + rewrite H3. clear - Hne Hi. destruct (Nat.leb_spec j k), (Nat.ltb_spec k (j + (i - lo))), (Nat.ltb_spec k (j + (S i - lo))); cbn [andb]; auto; exfalso; lia.
  - cbn [fst snd] in *. exists ix'. rewrite E. replace (lo + n - lo) with n in * by lia. subst j'. auto.
Qed.
Lemma nth_list_ext (a b : list nat) : length a = length b -> (forall k, k < length a -> nth k a 0 = nth k b 0) -> a = b.
Proof. intros. apply (nth_ext _ _ 0 0); auto. Qed.
Theorem update_indexes_ok o l ix : l < o -> length ix = o - 1 -> update_indexes o ix l = Ok (after o l).
Proof.
  intros Hl Hix. unfold update_indexes.
  destruct (fill_pair_ok ix (l + 1) (o - (l + 1)) 0) as (ix1 & E1 & L1 & P1); [lia|].
  replace (l + 1 + (o - (l + 1))) with o in E1 by lia. rewrite E1. cbn [bind].
  destruct (fill_pair_ok ix1 0 l (0 + (o - (l + 1)))) as (ix2 & E2 & L2 & P2); [lia|].
  cbn [Nat.add] in E2, P2 |- *. rewrite E2. cbn [bind]. f_equal. apply nth_list_ext.
  - rewrite after_length; lia.
  - intros k Hk. rewrite P2, P1, after_nth by lia. clear - Hk L2 L1 Hix Hl. cyc; natcases; cbn [andb]; try lia.
Qed.

Section P.
Context {N : num} (RL : ring_laws N).
Local Open Scope num_scope.
Context (V : tensor N) (R : nat).
Let o := order V.
Hypothesis Ho : (3 <= o <= 31)%nat.
Context (l : nat).
Hypothesis Hl : (l < o)%nat.
Let mode := cmode o l.
Let ltr m := chr (cpos o l m).
Let d (c : Z) : nat := if Z.eqb c ch_star then R else nth (mode (Z.to_nat (c - 97))) (lens V) 0%nat.

Lemma ot_chr p : (p < o)%nat -> d (chr p) = nth (mode p) (lens V) 0%nat.
Proof.
  intros H. unfold d. destruct (Z.eqb_spec (chr p) ch_star) as [E|E]; [exfalso; revert E; apply chr_not_star; lia|].
  rewrite chr_small by lia. do 2 f_equal. lia.
Qed.
Lemma ot_ltr m : (m < o)%nat -> d (ltr m) = nth m (lens V) 0%nat.
Proof. intros H. unfold ltr. rewrite ot_chr by (apply cpos_lt; auto). unfold mode. rewrite cmode_cpos; auto. Qed.
Lemma ot_rk : d ch_star = R. Proof. reflexivity. Qed.
Lemma ot_inj i j : (i < o)%nat -> (j < o)%nat -> ltr i = ltr j -> i = j.
Proof.
  intros Hi Hj E. unfold ltr in E. assert (Ha := cpos_lt o l i Hl Hi). assert (Hb := cpos_lt o l j Hl Hj). apply chr_inj in E; [|lia|lia].
  rewrite <- (cmode_cpos o l i), <- (cmode_cpos o l j) by auto. congruence.
Qed.
Lemma ot_fresh i : (i < o)%nat -> ltr i <> ch_star.
Proof. intros H. unfold ltr. assert (Ha := cpos_lt o l i Hl H). apply chr_not_star; lia. Qed.
Lemma ot_letters : lens V = map d (letters ltr o).
Proof.
  unfold letters. rewrite map_map. rewrite (map_ext_in _ (fun m => nth m (lens V) 0%nat)).
  - apply (nth_ext _ _ 0%nat 0%nat).
    + rewrite map_length, seq_length. reflexivity.
    + intros k Hk. rewrite (nth_map_lt _ _ _ 0%nat) by (rewrite seq_length; auto). rewrite nth_seq by auto. auto.
  - intros m Hm. apply in_seq in Hm. apply ot_ltr. lia.
Qed.
Lemma sstr_ltr rest : (forall p, In p rest -> p < o)%nat -> map ltr (map mode rest) ++ [ch_star] = sstr rest.
Proof.
  intros H. unfold sstr. rewrite map_map. f_equal. apply map_ext_in. intros p Hp. unfold ltr, mode. rewrite cpos_cmode; auto.
Qed.
Lemma mode_nodup rest : (forall p, In p rest -> p < o)%nat -> NoDup rest -> NoDup (map mode rest).
Proof. intros H Hn. apply NoDup_map_inj; auto. intros x y Hx Hy. apply cmode_inj; auto. Qed.
Lemma in_mode rest p : (forall p, In p rest -> p < o)%nat -> (p < o)%nat -> In (mode p) (map mode rest) <-> In p rest.
Proof.
  intros H Hp. split; [|apply in_map]. intros Hi. apply in_map_iff in Hi as (q & E & Hq). apply cmode_inj in E; auto. subst. auto.
Qed.
Definition plens (rest : list nat) : list nat := map (fun p => nth (mode p) (lens V) 0%nat) rest ++ [R].
Lemma plens_d rest : (forall p, In p rest -> p < o)%nat -> plens rest = map d (sstr rest).
Proof.
  intros H. unfold plens, sstr. rewrite map_app, map_map. cbn [map]. rewrite ot_rk. f_equal. apply map_ext_in. intros p Hp. symmetry. apply ot_chr. auto.
Qed.
Lemma sstr_nodup rest : (forall p, In p rest -> p < o)%nat -> NoDup rest -> NoDup (sstr rest).
Proof.
  intros H Hn. apply NoDup_app_intro.
  - apply NoDup_map_inj; auto. intros x y Hx Hy. apply chr_inj; apply H in Hx, Hy; lia.
  - repeat constructor; auto.
  - intros c Hc [<-|[]]. apply in_map_iff in Hc as (p & E & Hp). apply H in Hp. revert E. apply chr_not_star; lia.
Qed.
(** contraction of position p *)
Theorem pos_contract W rest rest' p :
  factors_ok V W R -> (forall q, In q rest -> q < o)%nat -> NoDup rest -> In p rest -> NoDup rest' ->
  (forall q, In q rest' <-> In q rest /\ q <> p) ->
  assign false (zeros (plens rest')) (sstr rest') [prodt [(partial_mttkrp V W (map mode rest) R, sstr rest); (fac W (mode p), sstr [p])]]
  = Ok (partial_mttkrp V W (map mode rest') R).
Proof.
  intros HW Hr Hn Hp Hn' Hiff.
  assert (Hpo : (p < o)%nat) by auto. assert (Hmo : (mode p < o)%nat) by (apply cmode_lt; auto).
  assert (Hr' : forall q, In q rest' -> (q < o)%nat) by (intros q Hq; apply Hiff in Hq; apply Hr; tauto).
  assert (Hrm : forall m, In m (map mode rest) -> (m < o)%nat) by (intros m Hm; apply in_map_iff in Hm as (q & <- & Hq); apply cmode_lt; auto).
  assert (Hrm' : forall m, In m (map mode rest') -> (m < o)%nat) by (intros m Hm; apply in_map_iff in Hm as (q & <- & Hq); apply cmode_lt; auto).
  assert (HA := partial_rep RL d ltr ch_star o ot_inj ot_fresh V W (map mode rest) (mode_nodup rest Hr Hn) Hrm ot_letters).
  rewrite ot_rk, sstr_ltr in HA by auto.
  assert (Ep : sstr [p] = [ltr (mode p); ch_star]) by (unfold sstr, ltr, mode; cbn; rewrite cpos_cmode; auto).
  destruct (pm_step RL d ltr ch_star o ot_inj ot_fresh V (fac W) (outside (map mode rest) o) (mode p)
      (partial_mttkrp V W (map mode rest) R) (sstr rest) (sstr rest') (zeros (plens rest'))) as (B & E & HB); auto.
  - intros Hi. apply outside_in in Hi. apply (proj2 Hi). apply in_map. auto.
  - intros m Hm. apply outside_in in Hm. tauto.
  - rewrite ot_ltr, ot_rk by auto. apply HW. auto.
  - unfold sstr. apply in_or_app. left. unfold ltr, mode. rewrite cpos_cmode by auto. apply in_map. auto.
  - intros c Hc. unfold sstr in Hc. apply in_app_or in Hc as [Hc|[<-|[]]]; auto. right. apply in_map_iff in Hc as (q & <- & Hq).
    unfold letters. apply in_map_iff. exists (mode q). split; [unfold ltr, mode; rewrite cpos_cmode; auto|]. apply in_seq. assert (mode q < o)%nat by (apply cmode_lt; auto). lia.
  - apply sstr_nodup; auto.
  - intros c. unfold sstr. rewrite !in_app_iff. cbn [In]. assert (Hlp : ltr (mode p) = chr p) by (unfold ltr, mode; rewrite cpos_cmode; auto). rewrite Hlp. split.
    + intros [H|[<-|[]]]; auto. left. apply in_map_iff in H as (q & <- & Hq). apply Hiff in Hq. split; [left; apply in_map; tauto|].
      intros E. destruct Hq as [Hq Hne]. apply Hne. apply Hr in Hq. apply chr_inj in E; lia.
    + intros [[[H|[<-|[]]] H2]|H]; auto. apply in_map_iff in H as (q & <- & Hq). left. apply in_map. apply Hiff. split; [auto|congruence].
  - apply plens_d; auto.
  - rewrite Ep. rewrite E. f_equal. rewrite <- (sstr_ltr rest' Hr') in HB.
    rewrite (rep_partial RL d ltr ch_star o ot_inj ot_fresh V W _ _ B HB); auto.
    + apply mode_nodup; auto.
    + apply ot_letters.
    + apply NoDup_Permutation.
      * constructor; [|apply outside_nodup]. intros Hi. apply outside_in in Hi. apply (proj2 Hi), in_map. auto.
      * apply outside_nodup.
      * intros m. cbn [In]. rewrite !outside_in. split.
        -- intros [<-|[H1 H2]]; (split; [auto|]).
           ++ rewrite in_mode by auto. intros Hi. apply Hiff in Hi. tauto.
           ++ intros Hi. apply H2. apply in_map_iff in Hi as (q & <- & Hq). apply in_map. apply Hiff in Hq. tauto.
        -- intros [H1 H2]. destruct (Nat.eq_dec (mode p) m) as [|Hne]; auto. right. split; auto. intros Hi. apply H2.
           apply in_map_iff in Hi as (q & <- & Hq). apply in_map. apply Hiff. split; [auto|congruence].
Qed.
End P.

Lemma partial_ext {N : num} (V : tensor N) (W W' : list (tensor N)) rest R :
  (forall m, m < order V -> ~ In m rest -> fac W m = fac W' m) -> partial_mttkrp V W rest R = partial_mttkrp V W' rest R.
Proof.
  intros H. unfold partial_mttkrp. apply tabulate_ext. intros idx Hi. unfold partial_at. apply bigsum_ext. intros x Hx. f_equal.
  apply bigprod_ext. intros m Hm. apply outside_in in Hm. rewrite H; tauto.
Qed.
