(** What one sweep of the dimension-tree ALS does to factors without finite entries, whatever the element type does apart from the laws below *)
From Coq Require Import List ZArith Lia Bool Arith.
From Verif Require Import Base Num Tensor Spec MCommon MCP PBase PTensor PNan.
Import ListNotations.

Section A.
Context {N : num} (LA : lapack N).
Local Open Scope num_scope.
(** B: infinite or NaN; Z: zero or NaN *)
Record lossy (B Z : N -> Prop) : Prop := {
  ls_B : absorbing B;
  ls_Z : ideal Z;
  ls_div : forall x y, B x -> B (x / y);
  ls_sqrt : forall x, B x -> B (nsqrt x);
  ls_root : forall n x, (1 <= n)%nat -> B x -> B (nroot n x);
  ls_zdiv : forall x y, Z x -> Z (x / y);
  ls_zz : forall x y, Z x -> Z y -> B (x / y);
  ls_zsqrt : forall x, Z x -> Z (nsqrt x);
  ls_zroot : forall n x, (1 <= n)%nat -> Z x -> Z (nroot n x);
  ls_inv : forall x, Z x -> B (n1 / x);
  ls_test : forall x y, B x -> nltb (nsqrt x) y = false;
}.
Context (B Zn : N -> Prop) (HL : lossy B Zn).
Let HB := ls_B _ _ HL.
Let HZ := ls_Z _ _ HL.

Definition okm (T : tensor N) : Prop := wf T /\ order T = 2 /\ posT T.
Definition oks (W : list (tensor N)) : Prop := forall T, In T W -> okm T.
Definition allW (P : N -> Prop) (W : list (tensor N)) : Prop := forall T, In T W -> allT P T.

Lemma lget_in {A} (l : list A) i a : lget l i = Ok a -> In a l.
Proof. unfold lget. destruct (nth_error l i) eqn:E; cbn; intros H; [injection H as <-; apply nth_error_In with i; auto|discriminate]. Qed.
Lemma lget_nth {A} (l : list A) i a : lget l i = Ok a -> nth_error l i = Some a.
Proof. unfold lget. destruct (nth_error l i) eqn:E; cbn; intros H; [injection H as <-; auto|discriminate]. Qed.
Lemma lput_inv {A} (l : list A) i a l' : lput l i a = Ok l' -> (i < length l)%nat /\ l' = lset l i a.
Proof. unfold lput. destruct (Nat.ltb_spec i (length l)); intros E; [injection E as <-; auto|discriminate]. Qed.
Lemma in_lset {A} (l : list A) i a x : In x (lset l i a) -> x = a \/ In x l.
Proof. revert i. induction l as [|y l IH]; intros [|i]; cbn; intros H; auto; destruct H as [H|H]; auto. destruct (IH i H); auto. Qed.
Lemma okm_in T : okm T -> exists x, In x (data T).
Proof.
  intros (Hwf & Ho & Hp). unfold wf in Hwf. unfold order in Ho. unfold posT in Hp. destruct (lens T) as [|a [|b [|]]]; try discriminate.
  pose proof (Hp a ltac:(cbn; auto)). pose proof (Hp b ltac:(cbn; auto)). unfold size in Hwf. cbn [fold_right] in Hwf. destruct (data T) as [|x l]; [cbn in Hwf; nia|]. exists x. cbn. auto.
Qed.
Lemma okm_lens T T' : okm T -> wf T' -> lens T' = lens T -> okm T'.
Proof. intros (H1 & H2 & H3) H4 E. unfold okm, order, posT in *. rewrite E. auto. Qed.

(** norms *)
Lemma norm2_B T x : In x (data T) -> B x -> B (norm2 T).
Proof. intros Hx H. unfold norm2. apply (ls_sqrt _ _ HL). apply (bigsum_abs B _ _ x); auto. apply HB. auto. Qed.
Lemma norm2_Z T : allT Zn T -> Zn (norm2 T).
Proof. intros H. unfold norm2. apply (ls_zsqrt _ _ HL). apply bigsum_ideal; auto. intros x Hx. apply HZ. auto. Qed.

(** assignments *)
Lemma two_ij : two sij.
Proof. exists ch_i, ch_j. split; [discriminate|reflexivity]. Qed.
Lemma assign_b_ok C bC fs (D : tensor N) : assign_b C bC fs = Ok D ->
  exists sC ps, take (order C) bC = Ok sC /\ map fst ps = map fst fs /\ assign false C sC [prodt ps] = Ok D.
Proof.
  unfold assign_b. intros E. apply bind_ok in E as (sC & E1 & E). apply bind_ok in E as (ps & E2 & E). exists sC, ps. repeat split; auto.
  clear - E2. revert ps E2. induction fs as [|[T b] fs IH]; cbn; intros ps E; [injection E as <-; auto|].
  apply bind_ok in E as (p & E1 & E). apply bind_ok in E as (r & E2 & E). injection E as <-. cbn. unfold tix in E1. apply bind_ok in E1 as (s & _ & E1). injection E1 as <-. cbn. f_equal. auto.
Qed.
Lemma allT_zeros (P : N -> Prop) ls : P n0 -> allT P (@zeros N ls).
Proof. intros H x Hx. unfold zeros, tabulate in Hx. cbn [data] in Hx. apply in_map_iff in Hx as (i & <- & _). auto. Qed.
Lemma assign_b_ideal P C bC fs (D T : tensor N) : ideal P -> assign_b C bC fs = Ok D -> allT P C -> In T (map fst fs) -> allT P T -> allT P D.
Proof.
  intros HP E HC Hin HT. apply assign_b_ok in E as (sC & ps & _ & Em & E). rewrite <- Em in Hin. apply in_map_iff in Hin as (p & <- & Hp).
  apply (assign_ideal P false C sC n1 ps D p); auto.
Qed.

(** lengths buffers *)
Definition posB (b : buf nat) : Prop := forall n, In (Some n) b -> (0 < n)%nat.
Lemma posB_new n : posB (newbuf n).
Proof. intros m Hm. unfold newbuf in Hm. apply repeat_spec in Hm. discriminate. Qed.
Lemma posB_set b i n b' : bset b i n = Ok b' -> posB b -> (0 < n)%nat -> posB b'.
Proof.
  unfold bset. destruct (i <? length b); [|discriminate]. intros E Hb Hn m Hm. injection E as <-. apply in_lset in Hm as [Hm|Hm]; [injection Hm as <-; auto|auto].
Qed.
Lemma take_in {A} n (b : buf A) l x : take n b = Ok l -> In x l -> In (Some x) b.
Proof.
  revert b l. induction n as [|n IH]; cbn; intros b l E Hx; [injection E as <-; destruct Hx|]. destruct b as [|[a|] b]; try discriminate. apply bind_ok in E as (r & E & E2). injection E2 as <-.
  destruct Hx as [<-|Hx]; [left; auto|right; eauto].
Qed.
Lemma new_tensor_pos n b (T : tensor N) : new_tensor n b = Ok T -> posB b -> posT T /\ (forall P : N -> Prop, P n0 -> allT P T).
Proof.
  unfold new_tensor. intros E Hb. apply bind_ok in E as (ls & E & E2). injection E2 as <-. split; [|intros P HP; apply allT_zeros; auto].
  intros m Hm. cbn [lens zeros tabulate] in Hm. apply Hb. apply (take_in n b ls); auto.
Qed.
Lemma copy_pos (ls : list nat) lo hi (f : nat -> nat) b b' : (forall n, In n ls -> (0 < n)%nat) ->
  for_ lo hi (fun m b => x <- lget ls m ;; bset b (f m) x) b = Ok b' -> posB b -> posB b'.
Proof.
  intros Hl E Hb. apply (for_keep posB _ _ _ _ _ E Hb). intros j s s' Hs E2. apply bind_ok in E2 as (x & E1 & E2). apply (posB_set s (f j) x); auto. apply Hl. apply lget_in with j. auto.
Qed.

(** ** the tables of the dimension tree *)
Section TREE.
Context (P : N -> Prop) (HP : ideal P).
Definition Q (T : tensor N) : Prop := posT T /\ allT P T.
Lemma front_Q (n : nat) lensV bC V Wi sq sw (T D : tensor N) : posB lensV -> new_tensor n lensV = Ok T -> assign_b T bC [(V, sq); (Wi, sw)] = Ok D -> Q V -> Q D.
Proof.
  intros Hb E1 E2 [_ HV]. destruct (new_tensor_pos _ _ _ E1 Hb) as [H1 H2]. split.
  - apply assign_b_ok in E2 as (sC & ps & _ & _ & E2). apply assign_ok in E2 as (El & _). unfold posT. rewrite El. auto.
  - apply (assign_b_ideal P T bC _ D V HP E2); auto; [apply H2; apply HP|cbn; auto].
Qed.
Lemma dt_top_Q V W K par sib T : dt_top V W K par sib = Ok T -> Q V -> (0 < K)%nat -> Q T.
Proof.
  unfold dt_top. intros E HV HK. pose proof HV as [HVp _].
  do 11 (apply bind_ok in E as (? & ? & E)). 
  apply bind_ok in E as (l1 & El1 & E). apply bind_ok in E as (l2 & El2 & E). apply bind_ok in E as (l3 & El3 & E). apply bind_ok in E as (Vt & EVt & E).
  apply bind_ok in E as (Wi & EWi & E). apply bind_ok in E as (Vf & EVf & E). apply bind_ok in E as ([[[Vf' a] b] c] & Ef & E). injection E as <-.
  assert (Hb : posB l3).
  { apply (posB_set l2 _ K _ El3); auto. apply (copy_pos _ _ _ (fun m => (m - 1)%nat) _ _ HVp El2). apply (copy_pos _ _ _ (fun m => m) _ _ HVp El1). apply posB_new. }
  assert (HVf : Q Vf) by (apply (front_Q _ _ _ _ _ _ _ _ _ Hb EVt EVf HV)). clear EVf.
  refine (for_keep (fun st => Q (fst (fst (fst st)))) _ _ _ _ _ Ef HVf _). clear Ef HVf. intros j [[[F s1] s2] s3] [[[F' s1'] s2'] s3'] HF E. cbn [fst] in *.
  unfold dt_top_step in E. do 9 (apply bind_ok in E as (? & ? & E)).
  apply bind_ok in E as (m1 & Em1 & E). apply bind_ok in E as (m2 & Em2 & E). apply bind_ok in E as (m3 & Em3 & E). apply bind_ok in E as (Wt & EWt & E).
  apply bind_ok in E as (Wj & EWj & E). apply bind_ok in E as (Vg & EVg & E). injection E as <- _ _ _.
  assert (Hb2 : posB m3).
  { apply (posB_set m2 _ K _ Em3); auto. apply (copy_pos _ _ _ (fun m => (m - j - 1)%nat) _ _ HVp Em2). apply (copy_pos _ _ _ (fun m => m) _ _ HVp Em1). apply posB_new. }
  apply (front_Q _ _ _ _ _ _ _ _ _ Hb2 EWt EVg HF).
Qed.
Lemma dt_low_Q V W K par sib T : dt_low V W K par sib = Ok T -> Q V -> (0 < K)%nat -> Q T.
Proof.
  unfold dt_low. intros E HV HK. pose proof HV as [HVp _].
  do 8 (apply bind_ok in E as (? & ? & E)).
  apply bind_ok in E as ([[[Vf' a] b] c] & Ef & E). injection E as <-.
  refine (for_keep (fun st => Q (fst (fst (fst st)))) _ _ _ _ _ Ef HV _). clear Ef. intros j [[[F s1] s2] s3] [[[F' s1'] s2'] s3'] HF E. cbn [fst] in *.
  unfold dt_low_step in E. do 9 (apply bind_ok in E as (? & ? & E)).
  apply bind_ok in E as (m1 & Em1 & E). apply bind_ok in E as (m2 & Em2 & E). apply bind_ok in E as (m3 & Em3 & E). apply bind_ok in E as (Wt & EWt & E).
  apply bind_ok in E as (wi & Ewi & E). apply bind_ok in E as (Wj & EWj & E). apply bind_ok in E as (Vg & EVg & E). injection E as <- _ _ _.
  assert (Hb2 : posB m3).
  { apply (posB_set m2 _ K _ Em3); auto. apply (copy_pos _ _ _ (fun m => (m - j - 1)%nat) _ _ HVp Em2). apply (copy_pos _ _ _ (fun m => m) _ _ HVp Em1). apply posB_new. }
  apply (front_Q _ _ _ _ _ _ _ _ _ Hb2 EWt EVg HF).
Qed.
Definition Qmap (mp : smap (tensor N)) : Prop := forall k T, mp k = Some T -> Q T.
Lemma Qmap_put mp k T : Qmap mp -> Q T -> Qmap (sput mp k T).
Proof. intros H HT k' T' E. unfold sput in E. destruct (str_eqb k' k); [injection E as <-; auto|eauto]. Qed.
Lemma ncol_pos W0 : okm W0 -> (0 < ncol W0)%nat.
Proof. intros (_ & Ho & Hp). unfold order in Ho. unfold ncol, posT in *. destruct (lens W0) as [|a [|b [|]]]; try discriminate. cbn. apply Hp. cbn. auto. Qed.
Lemma nrow_pos W0 : okm W0 -> (0 < nrow W0)%nat.
Proof. intros (_ & Ho & Hp). unfold order in Ho. unfold nrow, posT in *. destruct (lens W0) as [|a [|b [|]]]; try discriminate. cbn. apply Hp. cbn. auto. Qed.
Lemma map_Q fuel parent sibling V W : Q V -> oks W -> forall mp args mp', mttkrp_map_DT fuel mp parent sibling V W args = Ok mp' -> Qmap mp -> Qmap mp'.
Proof.
  intros HV HW. induction fuel as [|fuel IH]; intros mp args mp' E Hmp; [discriminate|]. cbn [mttkrp_map_DT] in E.
  apply bind_ok in E as (W0 & E0 & E). assert (HK : (0 < ncol W0)%nat) by (apply ncol_pos; apply HW; apply lget_in with 0%nat; auto).
  destruct (mp args); [injection E as <-; auto|]. destruct (Nat.eqb _ _ || Nat.eqb _ _).
  - apply bind_ok in E as (T & ET & E). injection E as <-. apply Qmap_put; auto. apply (dt_top_Q _ _ _ _ _ _ ET); auto.
  - apply bind_ok in E as (mp1 & E1 & E). apply bind_ok in E as (Vp & E2 & E). apply bind_ok in E as (T & ET & E). injection E as <-.
    assert (H1 : Qmap mp1) by (destruct (mp (sget parent args)); [injection E1 as <-; auto|apply (IH _ _ _ E1 Hmp)]).
    apply Qmap_put; auto. apply (dt_low_Q _ _ _ _ _ _ ET); auto. destruct (mp1 (sget parent args)) eqn:E3; cbn in E2; [injection E2 as <-; eauto|discriminate].
Qed.
Lemma tget_Q mp k : Qmap mp -> Q (tget mp k).
Proof. intros H. unfold tget. destruct (mp k) eqn:E; [eauto|]. split; [intros n []|intros x []]. Qed.
End TREE.

Lemma two_star i : (i <= 30)%nat -> two [chr i; ch_star].
Proof. intros H. exists (chr i), ch_star. split; auto. pose proof (chr_ge i H) as K. unfold ch_star. intros E. rewrite E in K. lia. Qed.
Lemma take_lit2 a b (r c : nat) : take (order (@zeros N [r; c])) (lit [a; b]) = Ok [a; b].
Proof. reflexivity. Qed.
(** the MTTKRP of a mode from the tree *)
Lemma M_lens C sC ts (D : tensor N) acc : assign acc C sC ts = Ok D -> okm C -> okm D.
Proof. intros E H. apply assign_ok in E as (E1 & E2 & _). apply (okm_lens C); auto. Qed.
Lemma assign_b_abs C bC sC fs (D T : tensor N) : assign_b C bC fs = Ok D -> take (order C) bC = Ok sC -> two sC -> In T (map fst fs) -> wf T -> allT B T ->
  (forall T, In T (map fst fs) -> posT T) -> allT B D.
Proof.
  intros E Et H2 Hin Hwf HT Hpos. apply assign_b_ok in E as (sC' & ps & Et' & Em & E). assert (sC' = sC) by congruence. subst sC'.
  rewrite <- Em in Hin. apply in_map_iff in Hin as (p & <- & Hp). pose proof E as E'. apply assign_ok in E' as (_ & _ & _ & Hok & _).
  apply (assign_abs B C sC [prodt ps] D n1 ps p); auto; [left; reflexivity|]. intros x Hx. specialize (Hok _ (or_introl eq_refl)). unfold term_ok in Hok. apply andb_true_iff in Hok as [Hok _]. cbn [facs prodt] in Hok.
  apply dims_pos; auto; [|apply contracted_spec in Hx; apply Hx]. intros q Hq. apply Hpos. rewrite <- Em. apply in_map. auto.
Qed.
Lemma dt_M_ok (P : N -> Prop) fuel parent sibling V W mp i mp' M : ideal P -> (i <= 30)%nat -> dt_M fuel parent sibling V W mp i = Ok (mp', M) -> Q P V -> oks W -> Qmap P mp ->
  Qmap P mp' /\ okm M /\ allT P M /\ (allW B W -> allT B M).
Proof.
  intros HP Hi E HV HW Hmp. unfold dt_M in E. apply bind_ok in E as (mp1 & E1 & E). apply bind_ok in E as (Wi & EWi & E).
  assert (H1 : Qmap P mp1) by (destruct (mp (sget parent [chr i])); [injection E1 as <-; auto|apply (map_Q P HP _ _ _ _ _ HV HW _ _ _ E1 Hmp)]).
  assert (HWi : okm Wi) by (apply HW; apply lget_in with i; auto).
  assert (HC : okm (@zeros N [nrow Wi; ncol Wi])).
  { repeat split; [apply tabulate_wf|]. intros n Hn. cbn in Hn. destruct Hn as [<-|[<-|[]]]; [apply nrow_pos|apply ncol_pos]; auto. }
  pose proof (tget_Q P mp1 (sget parent [chr i]) H1) as [HPp HPP].
  destruct (Nat.eqb (length (sget sibling [chr i])) 1).
  - apply bind_ok in E as (p0 & _ & E). apply bind_ok in E as (p1 & _ & E). apply bind_ok in E as (wa & _ & E). apply bind_ok in E as (Wa & EWa & E). apply bind_ok in E as (M' & EM & E).
    injection E as <- <-. split; [auto|]. pose proof EM as EM'. apply assign_b_ok in EM' as (sC & ps & _ & _ & EM'). split; [apply (M_lens _ _ _ _ _ EM' HC)|]. clear EM'.
    split; [apply (assign_b_ideal P _ _ _ _ (tget mp1 (sget parent [chr i])) HP EM); [apply allT_zeros; apply HP|cbn; auto|auto]|].
    intros HWB. apply lget_in in EWa. apply (assign_b_abs _ _ _ _ _ Wa EM (take_lit2 _ _ _ _)); [apply two_star; auto|cbn; auto|apply HW; auto|apply HWB; auto|].
    intros T [<-|[<-|[]]]; cbn [fst]; auto. apply HW; auto.
  - apply bind_ok in E as (p0 & _ & E). apply bind_ok in E as (p1 & _ & E). apply bind_ok in E as (p2 & _ & E).
    destruct (if Z.eqb p0 (chr i) then (p1, p2) else (p0, p1)) as [a1 a2].
    apply bind_ok in E as (w1 & _ & E). apply bind_ok in E as (W1 & EW1 & E). apply bind_ok in E as (w2 & _ & E). apply bind_ok in E as (W2 & EW2 & E). apply bind_ok in E as (M' & EM & E).
    injection E as <- <-. split; [auto|]. pose proof EM as EM'. apply assign_b_ok in EM' as (sC & ps & _ & _ & EM'). split; [apply (M_lens _ _ _ _ _ EM' HC)|]. clear EM'.
    split; [apply (assign_b_ideal P _ _ _ _ (tget mp1 (sget parent [chr i])) HP EM); [apply allT_zeros; apply HP|cbn; auto|auto]|].
    intros HWB. apply lget_in in EW1. apply lget_in in EW2. apply (assign_b_abs _ _ _ _ _ W1 EM (take_lit2 _ _ _ _)); [apply two_star; auto|cbn; auto|apply HW; auto|apply HWB; auto|].
    intros T [<-|[<-|[<-|[]]]]; cbn [fst]; auto; apply HW; auto.
Qed.
End A.
