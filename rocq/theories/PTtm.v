(** Tensor-times-matrix products: algebra of [ttm]/[ttmc] and the index-notation statements that compute them *)
From Coq Require Import List ZArith Lia Bool Arith Permutation Ring.
From Verif Require Import Base Num Tensor Spec Spec7 PBase PTensor PSum PPart.
Import ListNotations.

Lemma nth_eq_ext {A} (l l' : list A) d : length l = length l' -> (forall i, i < length l -> nth i l d = nth i l' d) -> l = l'.
Proof. intros. apply nth_ext with (d:=d) (d':=d); auto. Qed.
Lemma lset_self {A} (l : list A) m d : lset l m (nth m l d) = l.
Proof. revert m; induction l; destruct m; simpl; auto. f_equal; auto. Qed.
Lemma lset_lset {A} (l : list A) m a b : lset (lset l m a) m b = lset l m b.
Proof. revert m; induction l; destruct m; simpl; auto. f_equal; auto. Qed.
Lemma lset_comm {A} (l : list A) m n a b : m <> n -> lset (lset l m a) n b = lset (lset l n b) m a.
Proof. revert m n; induction l; destruct m, n; simpl; intros; auto; try congruence. f_equal; apply IHl; lia. Qed.
Lemma lset_same {A} (l : list A) m a d : m < length l -> nth m (lset l m a) d = a.
Proof. intros. rewrite lset_nth by auto. rewrite Nat.eqb_refl. auto. Qed.
Lemma lset_other {A} (l : list A) m k a d : k <> m -> nth k (lset l m a) d = nth k l d.
Proof. revert m k; induction l; destruct m, k; simpl; intros; auto; try congruence. Qed.
Lemma map_lset {A B} (f : A -> B) l m a : map f (lset l m a) = lset (map f l) m (f a).
Proof. revert m; induction l; destruct m; simpl; auto. f_equal; auto. Qed.
Lemma inb_length ls idx : inb ls idx -> length idx = length ls.
Proof. intros H. induction H; simpl; auto. Qed.
Lemma inb_lset ls idx m n i : inb ls idx -> i < n -> inb (lset ls m n) (lset idx m i).
Proof.
  intros H Hi. revert m. induction H; intros m; simpl; [constructor|]. destruct m; constructor; auto. apply IHForall2.
Qed.
Lemma inb_intro ls idx : length idx = length ls -> (forall m, m < length ls -> nth m idx 0 < nth m ls 0) -> inb ls idx.
Proof.
  revert idx. induction ls; destruct idx; simpl; intros L H; try discriminate; constructor.
  - apply (H 0). lia.
  - apply IHls; [lia|]. intros m Hm. apply (H (S m)). lia.
Qed.

Section P.
Context {N : num} (RL : ring_laws N).
Local Open Scope num_scope.
Let RT : ring_theory (@n0 N) n1 nadd nmul nsub nopp (@eq N) := RL.
Add Ring nring : RT.

(** *** algebra *)
Lemma bigprod_cons {X} (a : X) l (f : X -> N) : bigprod (a :: l) f = f a * bigprod l f.
Proof. reflexivity. Qed.
Lemma ttmc_lens_length (V : tensor N) W ms : length (ttmc_lens V W ms) = order V.
Proof. unfold ttmc_lens. rewrite map_length, seq_length. auto. Qed.
Lemma ttmc_lens_nth (V : tensor N) W ms m : m < order V ->
  nth m (ttmc_lens V W ms) 0%nat = if existsb (Nat.eqb m) ms then ncol (fac W m) else nth m (lens V) 0%nat.
Proof.
  intros H. unfold ttmc_lens.
  rewrite nth_map_lt with (d:=0%nat) by (rewrite seq_length; auto). rewrite nth_seq by auto. auto.
Qed.
Lemma ttmc_order (V : tensor N) W ms : order (ttmc V W ms) = order V.
Proof. unfold order at 1. cbn [ttmc tabulate lens]. apply ttmc_lens_length. Qed.
Lemma ttmc_wf (V : tensor N) W ms : wf (ttmc V W ms).
Proof. apply tabulate_wf. Qed.
Lemma ttm_wf (T A : tensor N) m : wf (ttm T A m).
Proof. apply tabulate_wf. Qed.

Lemma existsb_perm (ms ms' : list nat) m : (forall x, In x ms <-> In x ms') -> existsb (Nat.eqb m) ms = existsb (Nat.eqb m) ms'.
Proof.
  intros H. destruct (existsb (Nat.eqb m) ms) eqn:E; symmetry.
  - apply existsb_nat. apply H. apply existsb_nat. auto.
  - destruct (existsb (Nat.eqb m) ms') eqn:E'; auto. apply existsb_nat in E'. apply H in E'. apply existsb_nat in E'. congruence.
Qed.
Lemma existsb_not m ms : ~ In m ms -> existsb (Nat.eqb m) ms = false.
Proof. intros H. destruct (existsb (Nat.eqb m) ms) eqn:E; auto. apply existsb_nat in E. tauto. Qed.
Lemma existsb_yes m ms : In m ms -> existsb (Nat.eqb m) ms = true.
Proof. apply existsb_nat. Qed.

Lemma ttmc_perm (V : tensor N) W ms ms' : Permutation ms ms' -> ttmc V W ms = ttmc V W ms'.
Proof.
  intros H. assert (Hi : forall x, In x ms <-> In x ms').
  { intros x. split; apply Permutation_in; auto. apply Permutation_sym; auto. }
  assert (Hf : forall A (p q : A -> bool) l, (forall a, p a = q a) -> forallb p l = forallb q l).
  { intros A p q l E. induction l; simpl; auto. rewrite E, IHl. auto. }
  unfold ttmc. replace (ttmc_lens V W ms') with (ttmc_lens V W ms).
  - apply tabulate_ext. intros y _. unfold ttmc_at.
    erewrite filter_ext; [|intros x; apply Hf; intros m; rewrite (existsb_perm ms ms' m Hi); reflexivity].
    apply bigsum_ext. intros x _. f_equal. apply (bigprod_perm RL); auto.
  - unfold ttmc_lens. apply map_ext. intros m. rewrite (existsb_perm ms ms' m Hi). auto.
Qed.
Lemma ttmc_ext (V : tensor N) W W' ms : (forall m, In m ms -> fac W m = fac W' m) -> ttmc V W ms = ttmc V W' ms.
Proof.
  intros H. unfold ttmc. replace (ttmc_lens V W' ms) with (ttmc_lens V W ms).
  - apply tabulate_ext. intros y _. unfold ttmc_at. apply bigsum_ext. intros x _. f_equal.
    apply bigprod_ext. intros m Hm. rewrite H by auto. auto.
  - unfold ttmc_lens. apply map_ext. intros m. destruct (existsb (Nat.eqb m) ms) eqn:E; auto.
    apply existsb_nat in E. rewrite H by auto. auto.
Qed.

(** the multi-indices that agree with y outside ms *)
Definition agree (o : nat) (ms y x : list nat) : bool :=
  forallb (fun m => existsb (Nat.eqb m) ms || Nat.eqb (nth m x 0%nat) (nth m y 0%nat)) (seq 0 o).
Lemma agree_spec o ms y x : agree o ms y x = true <-> forall m, m < o -> ~ In m ms -> nth m x 0%nat = nth m y 0%nat.
Proof.
  unfold agree. rewrite forallb_forall. split.
  - intros H m Hm Hn. specialize (H m). rewrite in_seq, existsb_not in H by auto. simpl in H. apply Nat.eqb_eq, H. lia.
  - intros H m Hm. apply in_seq in Hm. destruct (existsb (Nat.eqb m) ms) eqn:E; auto. simpl. apply Nat.eqb_eq, H; [lia|].
    intros Hi. apply existsb_nat in Hi. congruence.
Qed.
Lemma ttmc_nil (V : tensor N) W : wf V -> ttmc V W [] = V.
Proof.
  intros HV.
  assert (L : ttmc_lens V W [] = lens V).
  { apply nth_eq_ext with (d:=0%nat); [apply ttmc_lens_length|]. rewrite ttmc_lens_length. intros i Hi.
    rewrite ttmc_lens_nth by auto. auto. }
  apply tensor_ext; auto; [apply ttmc_wf|]. cbn [ttmc tabulate lens].
  intros y Hy. unfold ttmc. rewrite at_tabulate by auto. rewrite L in Hy.
  unfold ttmc_at. fold (agree (order V) [] y). rewrite (bigsum_filter RL).
  rewrite (bigsum_single RL _ _ y).
  - assert (A : agree (order V) [] y y = true) by (apply agree_spec; auto). rewrite A. cbn [bigprod fold_right]. ring.
  - apply all_idx_nodup.
  - apply all_idx_in; auto.
  - intros x Hx Hn. destruct (agree (order V) [] y x) eqn:E; auto. exfalso. apply Hn.
    apply all_idx_in in Hx. apply nth_eq_ext with (d:=0%nat).
    + rewrite (inb_length _ _ Hx), (inb_length _ _ Hy). auto.
    + rewrite (inb_length _ _ Hx). intros i Hi. rewrite agree_spec in E. apply E; auto.
Qed.

Lemma ttmc_cons_lens (V : tensor N) W ms m : m < order V ->
  ttmc_lens V W (m :: ms) = lset (ttmc_lens V W ms) m (ncol (fac W m)).
Proof.
  intros Hm. apply nth_eq_ext with (d:=0%nat); [rewrite lset_length, !ttmc_lens_length; auto|].
  rewrite ttmc_lens_length. intros i Hi. rewrite ttmc_lens_nth by auto. cbn [existsb].
  destruct (Nat.eq_dec i m) as [->|Hn].
  - rewrite Nat.eqb_refl. cbn [orb]. rewrite lset_same by (rewrite ttmc_lens_length; auto). auto.
  - rewrite lset_other by auto. rewrite ttmc_lens_nth by auto. rewrite (proj2 (Nat.eqb_neq i m)) by auto. auto.
Qed.
(** one more mode *)
Theorem ttm_ttmc (V : tensor N) W ms m : m < order V -> ~ In m ms ->
  ttm (ttmc V W ms) (fac W m) m = ttmc V W (m :: ms).
Proof.
  intros Hm Hni.
  assert (Hl : lset (lens (ttmc V W ms)) m (ncol (fac W m)) = ttmc_lens V W (m :: ms)) by (symmetry; apply ttmc_cons_lens; auto).
  unfold ttm, ttmc at 4. rewrite Hl. apply tabulate_ext. intros y Hy.
  assert (Ly : length y = order V) by (rewrite (inb_length _ _ Hy); apply ttmc_lens_length).
  cbn [ttmc tabulate lens]. rewrite ttmc_lens_nth, existsb_not by auto.
  transitivity (bigsum (seq 0 (nth m (lens V) 0%nat)) (fun x => bigsum (all_idx (lens V)) (fun z =>
     if Nat.eqb (nth m z 0%nat) x then
       (if agree (order V) (m :: ms) y z then
          at_ V z * bigprod (m :: ms) (fun m => el (fac W m) (nth m z 0%nat) (nth m y 0%nat)) else n0) else n0))).
  - apply bigsum_ext. intros x Hx. apply in_seq in Hx.
    unfold ttmc. rewrite at_tabulate.
    2:{ assert (Hi : inb (lset (ttmc_lens V W (m :: ms)) m (nth m (lens V) 0%nat)) (lset y m x)) by (apply inb_lset; auto; lia).
        rewrite ttmc_cons_lens, lset_lset in Hi by auto.
        replace (nth m (lens V) 0%nat) with (nth m (ttmc_lens V W ms) 0%nat) in Hi; [rewrite lset_self in Hi; auto|].
        rewrite ttmc_lens_nth, existsb_not by auto. auto. }
    unfold ttmc_at. fold (agree (order V) ms (lset y m x)). rewrite (bigsum_filter RL), <- (bigsum_mul_r RL).
    apply bigsum_ext. intros z Hz.
    destruct (Nat.eqb_spec (nth m z 0%nat) x) as [Ex|Ex].
    + assert (E : agree (order V) ms (lset y m x) z = agree (order V) (m :: ms) y z).
      { apply eq_true_iff_eq. rewrite !agree_spec. split; intros H k Hk Hn.
        - rewrite H by (auto; intros Hi; apply Hn; right; auto). apply lset_other. intros ->. apply Hn. left; auto.
        - destruct (Nat.eq_dec k m) as [->|Hd]; [rewrite lset_same by lia; auto|]. rewrite lset_other by auto.
          apply H; auto. intros [Hi|Hi]; auto. }
      rewrite E. destruct (agree (order V) (m :: ms) y z); [|ring]. rewrite bigprod_cons, Ex.
      replace (bigprod ms (fun m0 => el (fac W m0) (nth m0 z 0%nat) (nth m0 (lset y m x) 0%nat)))
        with (bigprod ms (fun m0 => el (fac W m0) (nth m0 z 0%nat) (nth m0 y 0%nat))).
      * ring.
      * apply bigprod_ext. intros k Hk. rewrite lset_other; auto. intros ->. auto.
    + assert (E : agree (order V) ms (lset y m x) z = false).
      { destruct (agree (order V) ms (lset y m x) z) eqn:E; auto. rewrite agree_spec in E. exfalso. apply Ex.
        rewrite E by auto. apply lset_same. lia. }
      rewrite E. ring.
  - rewrite (bigsum_swap RL). unfold ttmc_at. fold (agree (order V) (m :: ms) y). rewrite (bigsum_filter RL).
    apply bigsum_ext. intros z Hz. apply all_idx_in in Hz.
    rewrite (bigsum_single RL _ _ (nth m z 0%nat)).
    + rewrite Nat.eqb_refl. auto.
    + apply seq_NoDup.
    + apply in_seq. assert (nth m z 0%nat < nth m (lens V) 0%nat); [|lia]. apply inb_nth; auto.
    + intros x _ Hx. rewrite (proj2 (Nat.eqb_neq _ _)); auto.
Qed.

Lemma ttm_at (T A : tensor N) m y : inb (lset (lens T) m (ncol A)) y ->
  at_ (ttm T A m) y = bigsum (seq 0 (nth m (lens T) 0%nat)) (fun x => at_ T (lset y m x) * el A x (nth m y 0%nat)).
Proof. intros H. unfold ttm. rewrite at_tabulate by auto. auto. Qed.
Lemma ttm_lens (T A : tensor N) m : lens (ttm T A m) = lset (lens T) m (ncol A).
Proof. reflexivity. Qed.
(** *** statements *)
Lemma map_assoc (s : str) (l : list nat) : NoDup s -> length s = length l -> map (fun x => assoc x (combine s l)) s = l.
Proof.
  intros H. revert l. induction H as [|c s Hc Hs IH]; intros l L; destruct l as [|n l]; try discriminate; auto.
  cbn [combine map assoc]. rewrite Z.eqb_refl. f_equal. transitivity (map (fun x => assoc x (combine s l)) s).
  - apply map_ext_in. intros x Hx. destruct (Z.eqb_spec x c); [subst; tauto|auto].
  - apply IH. simpl in L. lia.
Qed.
Definition dl (s : str) (l : list nat) (ex : list (Z * nat)) (x : Z) : nat := assoc x (ex ++ combine s l).
Lemma dl_base s l ex : NoDup s -> length s = length l -> (forall c, In c s -> ~ In c (map fst ex)) -> map (dl s l ex) s = l.
Proof.
  intros Hs L He. rewrite <- (map_assoc s l) at 2 by auto. apply map_ext_in. intros c Hc. unfold dl.
  specialize (He c Hc). clear -He. induction ex as [|[c' n'] ex IH]; cbn [app assoc]; auto.
  destruct (Z.eqb_spec c c'); [subst; exfalso; apply He; left; auto|]. apply IH. intros Hi. apply He. right; auto.
Qed.
Lemma nth_in_str (s : str) m d : m < length s -> In (nth m s d) s.
Proof. apply nth_In. Qed.
Lemma NoDup_lset (s : str) m c : NoDup s -> ~ In c s -> NoDup (lset s m c).
Proof.
  intros H. revert m. induction H as [|x s Hx Hs IH]; intros m Hc; [constructor|]. destruct m; simpl; constructor; auto.
  - intros Hi. apply Hc. right; auto.
  - intros Hi. assert (In x s \/ x = c) as [Ha| ->]; [|tauto|apply Hc; left; auto].
    clear -Hi. revert m Hi. induction s; intros m Hi; destruct m; simpl in *; auto.
    + destruct Hi; auto.
    + destruct Hi as [->|Hi]; auto. destruct (IHs _ Hi); auto.
  - apply IH. intros Hi. apply Hc. right; auto.
Qed.
Lemma in_lset (s : str) m c x : m < length s -> NoDup s -> (In x (lset s m c) <-> x = c \/ (In x s /\ x <> nth m s 0%Z)).
Proof.
  intros Hm Hs. revert m Hm. induction Hs as [|a s Ha Hs IH]; intros m Hm; [simpl in Hm; lia|]. destruct m; cbn [lset nth In].
  - split.
    + intros [->|H]; [auto|]. right. split; auto. intros ->. auto.
    + intros [->|[[->|H] Hn]]; auto. congruence.
  - simpl in Hm. rewrite IH by lia. split.
    + intros [->|[->|[H Hn]]]; auto. right. split; auto. intros ->. apply Ha. apply nth_In. lia.
    + intros [->|[[->|H] Hn]]; auto.
Qed.
Lemma map_upd_lset e (s : str) m c x : NoDup s -> m < length s -> ~ In c s ->
  map (upd e (nth m s 0%Z) x) s = lset (map e (lset s m c)) m x.
Proof.
  intros Hs Hm Hc. apply nth_eq_ext with (d:=0%nat); [rewrite lset_length, !map_length, lset_length; auto|].
  rewrite map_length. intros i Hi. rewrite nth_map_lt with (d:=0%Z) by auto. unfold upd.
  destruct (Nat.eq_dec i m) as [->|Hn].
  - rewrite Z.eqb_refl, lset_same; auto. rewrite map_length, lset_length. auto.
  - rewrite lset_other by auto. rewrite nth_map_lt with (d:=0%Z) by (rewrite lset_length; auto).
    rewrite lset_other by auto. destruct (Z.eqb_spec (nth i s 0%Z) (nth m s 0%Z)) as [E|E]; auto.
    exfalso. apply Hn. rewrite NoDup_nth in Hs. apply (Hs i m); eauto.
Qed.
(** C[s with c at m] = (+=) T[s] * A[s_m c] *)
Theorem assign_ttm acc (C T A : tensor N) (s : str) m c :
  NoDup s -> length s = order T -> m < order T -> ~ In c s -> wf T -> is_mat A (nth m (lens T) 0%nat) (ncol A) ->
  lens C = lset (lens T) m (ncol A) ->
  assign acc C (lset s m c) [prodt [(T, s); (A, [nth m s 0%Z; c])]] = Ok (if acc then tadd C (ttm T A m) else ttm T A m).
Proof.
  intros Hs Ls Hm Hc HT (LA & HA) LC.
  set (d := dl s (lens T) [(c, ncol A)]).
  assert (Hds : map d s = lens T).
  { apply dl_base; auto. intros x Hx [E|[]]. cbn in E. subst. auto. }
  assert (Hdc : d c = ncol A). { unfold d, dl. cbn [app assoc]. rewrite Z.eqb_refl. auto. }
  assert (Hdm : d (nth m s 0%Z) = nth m (lens T) 0%nat).
  { rewrite <- Hds. rewrite nth_map_lt with (d:=0%Z) by lia. auto. }
  assert (Hns : NoDup (lset s m c)) by (apply NoDup_lset; auto).
  assert (HC : lens C = map d (lset s m c)). { rewrite map_lset, Hds, Hdc. auto. }
  assert (RT' : rep d T s (fun e => at_ T (map e s))) by (apply rep_self; auto).
  assert (RA : rep d A [nth m s 0%Z; c] (fun e => at_ A (map e [nth m s 0%Z; c]))).
  { apply rep_self; auto. cbn [map]. rewrite Hdm, Hdc. auto. }
  set (fg := [(T, s, fun e => at_ T (map e s)); (A, [nth m s 0%Z; c], fun e => at_ A (map e [nth m s 0%Z; c]))] : list (tensor N * str * (env -> N))).
  assert (Hfg : fgrep d fg) by (repeat constructor; auto; apply RT' || apply RA).
  destruct (assign_rep d acc C (lset s m c) [prodt (map fst fg)] Hns HC) as (B & EB & RB).
  { intros t [<-|[]]. cbn [facs prodt]. apply fgrep_fit; auto. }
  cbn [map fst fg] in EB. rewrite EB. f_equal. destruct RB as (WB & LB & AB).
  assert (V1 : forall e, inr d (lset s m c) e -> tsval d (lset s m c) [prodt (map fst fg)] e =
     bigsum (seq 0 (nth m (lens T) 0%nat)) (fun x => at_ T (lset (map e (lset s m c)) m x) * el A x (nth m (map e (lset s m c)) 0%nat))).
  { intros e He. cbn [tsval fold_left]. unfold prodt. rewrite (tval_rep RL d (lset s m c) fg [nth m s 0%Z] n1 e); auto.
    - cbn [sumc]. rewrite Hdm. rewrite <- (bigsum_mul_l RL). apply bigsum_ext. intros x Hx.
      unfold fg. cbn [bigprod fold_right snd fst]. rewrite (map_upd_lset e s m c x) by (auto; lia).
      cbn [map]. rewrite upd_same, upd_other by (intros E; apply Hc; rewrite E; apply nth_In; lia).
      rewrite nth_map_lt with (d:=0%Z) by (rewrite lset_length; lia). rewrite lset_same by lia. unfold el. ring.
    - repeat constructor. intros [].
    - intros x. unfold fg. cbn [map fst snd flat_map app]. rewrite in_app_iff, in_lset by (auto; lia).
      assert (Hin : In (nth m s 0%Z) s) by (apply nth_In; lia). cbn [In]. split.
      + intros [<-|[]]. split; auto. intros [E|[_ E]]; [rewrite E in Hin; tauto|congruence].
      + intros [[H|[H|[H|[]]]] Hn]; auto.
        destruct (Z.eq_dec x (nth m s 0%Z)); [auto|exfalso; tauto].
    - intros q [<-|[<-|[]]]; cbn [snd]; apply at_env. }
  assert (LT : lens (ttm T A m) = lset (lens T) m (ncol A)) by reflexivity.
  apply tensor_ext; auto.
  - destruct acc; apply tabulate_wf.
  - rewrite LB, <- HC. destruct acc; auto.
  - intros idx Hi. rewrite LB in Hi. destruct (inb_env d (lset s m c) idx Hns Hi) as (e & E & He).
    rewrite <- E at 1. rewrite AB by auto. rewrite (V1 e He), E. rewrite <- HC in Hi.
    assert (Et : at_ (ttm T A m) idx = bigsum (seq 0 (nth m (lens T) 0%nat)) (fun x => at_ T (lset idx m x) * el A x (nth m idx 0%nat))).
    { unfold ttm. rewrite at_tabulate by (rewrite <- LC; auto). auto. }
    destruct acc; [|auto]. unfold tadd. rewrite at_tabulate by auto. rewrite Et. auto.
Qed.

(** the transposed matrix first: C[s with c at m] = At[c s_m] * T[s] *)
Theorem assign_ttm_t (C T A : tensor N) (s : str) m c :
  NoDup s -> length s = order T -> m < order T -> ~ In c s -> wf T -> is_mat A (nth m (lens T) 0%nat) (ncol A) ->
  lens C = lset (lens T) m (ncol A) ->
  assign false C (lset s m c) [prodt [(mtrans A, [c; nth m s 0%Z]); (T, s)]] = Ok (ttm T A m).
Proof.
  intros Hs Ls Hm Hc HT (LA & HA) LC.
  set (d := dl s (lens T) [(c, ncol A)]).
  assert (Hds : map d s = lens T).
  { apply dl_base; auto. intros x Hx [E|[]]. cbn in E. subst. auto. }
  assert (Hdc : d c = ncol A). { unfold d, dl. cbn [app assoc]. rewrite Z.eqb_refl. auto. }
  assert (Hdm : d (nth m s 0%Z) = nth m (lens T) 0%nat).
  { rewrite <- Hds. rewrite nth_map_lt with (d:=0%Z) by lia. auto. }
  assert (Hns : NoDup (lset s m c)) by (apply NoDup_lset; auto).
  assert (HC : lens C = map d (lset s m c)). { rewrite map_lset, Hds, Hdc. auto. }
  assert (RT' : rep d T s (fun e => at_ T (map e s))) by (apply rep_self; auto).
  assert (RA : rep d (mtrans A) [c; nth m s 0%Z] (fun e => at_ (mtrans A) (map e [c; nth m s 0%Z]))).
  { apply rep_self; [apply tabulate_wf|]. cbn [map mtrans tabulate lens]. unfold nrow. rewrite Hdm, Hdc, LA. auto. }
  set (fg := [(mtrans A, [c; nth m s 0%Z], fun e => at_ (mtrans A) (map e [c; nth m s 0%Z])); (T, s, fun e => at_ T (map e s))] : list (tensor N * str * (env -> N))).
  assert (Hfg : fgrep d fg) by (repeat constructor; auto; apply RT' || apply RA).
  destruct (contract_rep RL d C (lset s m c) fg [nth m s 0%Z] Hns HC Hfg) as (B & EB & RB).
  - repeat constructor. intros [].
  - intros x. unfold fg. cbn [map fst snd flat_map app]. rewrite app_nil_r. rewrite in_lset by (auto; lia).
    assert (Hin : In (nth m s 0%Z) s) by (apply nth_In; lia). cbn [In]. split.
    + intros [<-|[]]. split; auto. intros [E|[_ E]]; [rewrite E in Hin; tauto|congruence].
    + intros [[H|[H|H]] Hn]; auto. destruct (Z.eq_dec x (nth m s 0%Z)); [auto|exfalso; tauto].
  - intros q [<-|[<-|[]]]; cbn [snd]; apply at_env.
  - cbn [map fst fg] in EB. rewrite EB. f_equal. destruct RB as (WB & LB & AB).
    apply tensor_ext; auto; [apply tabulate_wf|rewrite LB, <- HC; auto|].
    intros idx Hi. rewrite LB in Hi. destruct (inb_env d (lset s m c) idx Hns Hi) as (e & E & He).
    rewrite <- E at 1. rewrite AB by auto. rewrite <- HC in Hi.
    unfold ttm. rewrite at_tabulate by (rewrite <- LC; auto).
    cbn [sumc]. rewrite Hdm. apply bigsum_ext. intros x Hx. apply in_seq in Hx.
    unfold fg. cbn [bigprod fold_right snd fst]. rewrite (map_upd_lset e s m c x), E by (auto; lia).
    cbn [map]. rewrite upd_same, upd_other by (intros Ec; apply Hc; rewrite Ec; apply nth_In; lia).
    assert (Ey : nth m idx 0%nat = e c).
    { rewrite <- E. rewrite nth_map_lt with (d:=0%Z) by (rewrite lset_length; lia). rewrite lset_same by lia. auto. }
    rewrite Ey. unfold mtrans at 1. rewrite at_tabulate.
    + cbn [nth]. ring.
    + unfold nrow. rewrite LA. cbn [nth]. constructor; [|constructor; [lia|constructor]].
      rewrite <- Hdc. apply He. rewrite in_lset by (auto; lia). auto.
Qed.
(** two modes at once *)
Theorem assign_ttm2 (C T A1 A2 : tensor N) (s : str) m1 m2 c1 c2 :
  NoDup s -> length s = order T -> m1 < order T -> m2 < order T -> m1 <> m2 -> ~ In c1 s -> ~ In c2 s -> c1 <> c2 -> wf T ->
  is_mat A1 (nth m1 (lens T) 0%nat) (ncol A1) -> is_mat A2 (nth m2 (lens T) 0%nat) (ncol A2) ->
  lens C = lset (lset (lens T) m1 (ncol A1)) m2 (ncol A2) ->
  assign false C (lset (lset s m1 c1) m2 c2)
    [prodt [(T, s); (A1, [nth m1 s 0%Z; c1]); (A2, [nth m2 s 0%Z; c2])]] = Ok (ttm (ttm T A1 m1) A2 m2).
Proof.
  intros Hs Ls H1 H2 Hm Hc1 Hc2 Hcc HT (LA1 & HA1) (LA2 & HA2) LC.
  set (d := dl s (lens T) [(c1, ncol A1); (c2, ncol A2)]).
  assert (Hds : map d s = lens T).
  { apply dl_base; auto. intros x Hx [E|[E|[]]]; cbn in E; subst; auto. }
  assert (Hd1 : d c1 = ncol A1). { unfold d, dl. cbn [app assoc]. rewrite Z.eqb_refl. auto. }
  assert (Hd2 : d c2 = ncol A2). { unfold d, dl. cbn [app assoc]. rewrite Z.eqb_refl. destruct (Z.eqb_spec c2 c1); congruence. }
  assert (Hdm : forall m, m < order T -> d (nth m s 0%Z) = nth m (lens T) 0%nat).
  { intros m Hmm. rewrite <- Hds. rewrite nth_map_lt with (d:=0%Z) by lia. auto. }
  set (s1 := lset s m1 c1).
  assert (Hs1 : NoDup s1) by (apply NoDup_lset; auto).
  assert (L1 : length s1 = order T) by (unfold s1; rewrite lset_length; auto).
  assert (I1 : forall x, In x s1 <-> x = c1 \/ In x s /\ x <> nth m1 s 0%Z) by (intros x; apply in_lset; auto; lia).
  assert (Hc21 : ~ In c2 s1). { rewrite I1. intros [E|[E _]]; auto. }
  assert (Hns : NoDup (lset s1 m2 c2)) by (apply NoDup_lset; auto).
  assert (N2 : nth m2 s1 0%Z = nth m2 s 0%Z) by (unfold s1; apply lset_other; auto).
  assert (I2 : forall x, In x (lset s1 m2 c2) <-> x = c2 \/ In x s1 /\ x <> nth m2 s 0%Z).
  { intros x. rewrite in_lset by (auto; lia). rewrite N2. tauto. }
  assert (Nd : nth m1 s 0%Z <> nth m2 s 0%Z).
  { intros E. apply Hm. rewrite (NoDup_nth s 0%Z) in Hs. apply (Hs m1 m2); [lia|lia|exact E]. }
  assert (HC : lens C = map d (lset s1 m2 c2)). { unfold s1. rewrite !map_lset, Hds, Hd1, Hd2. auto. }
  assert (RT' : rep d T s (fun e => at_ T (map e s))) by (apply rep_self; auto).
  assert (RA1 : rep d A1 [nth m1 s 0%Z; c1] (fun e => at_ A1 (map e [nth m1 s 0%Z; c1]))).
  { apply rep_self; auto. cbn [map]. rewrite Hdm, Hd1 by auto. auto. }
  assert (RA2 : rep d A2 [nth m2 s 0%Z; c2] (fun e => at_ A2 (map e [nth m2 s 0%Z; c2]))).
  { apply rep_self; auto. cbn [map]. rewrite Hdm, Hd2 by auto. auto. }
  set (fg := [(T, s, fun e => at_ T (map e s)); (A1, [nth m1 s 0%Z; c1], fun e => at_ A1 (map e [nth m1 s 0%Z; c1]));
              (A2, [nth m2 s 0%Z; c2], fun e => at_ A2 (map e [nth m2 s 0%Z; c2]))] : list (tensor N * str * (env -> N))).
  assert (Hfg : fgrep d fg) by (repeat constructor; auto; apply RT' || apply RA1 || apply RA2).
  assert (In1 : In (nth m1 s 0%Z) s) by (apply nth_In; lia).
  assert (In2 : In (nth m2 s 0%Z) s) by (apply nth_In; lia).
  destruct (contract_rep RL d C (lset s1 m2 c2) fg [nth m2 s 0%Z; nth m1 s 0%Z] Hns HC Hfg) as (B & EB & RB).
  - constructor; [intros [E|[]]; auto|]. constructor; [intros []|constructor].
  - intros x. unfold fg. cbn [map fst snd flat_map app]. rewrite in_app_iff, I2, I1. cbn [In]. split.
    + intros [<-|[<-|[]]]; (split; [auto|]).
      * intros [E|[_ E]]; [rewrite E in In2; tauto|congruence].
      * intros [E|[[E|[_ E]] _]]; [rewrite E in In1; tauto|rewrite E in In1; tauto|congruence].
    + intros [Hx Hn]. destruct (Z.eq_dec x (nth m2 s 0%Z)) as [->|Hx2]; auto. destruct (Z.eq_dec x (nth m1 s 0%Z)) as [->|Hx1]; auto.
      exfalso. apply Hn. destruct (Z.eq_dec x c1) as [->|Hxc]; [right; auto|]. destruct (Z.eq_dec x c2) as [->|Hxc2]; auto.
      right. split; auto. right. split; auto. destruct Hx as [Hx|[Hx|[Hx|[Hx|[Hx|[]]]]]]; auto; congruence.
  - intros q [<-|[<-|[<-|[]]]]; cbn [snd]; apply at_env.
  - cbn [map fst fg] in EB. fold s1. rewrite EB. f_equal. destruct RB as (WB & LB & AB).
    apply tensor_ext; auto; [apply tabulate_wf|rewrite LB, <- HC; auto|].
    intros idx Hi. rewrite LB in Hi. destruct (inb_env d (lset s1 m2 c2) idx Hns Hi) as (e & E & He).
    rewrite <- E at 1. rewrite AB by auto. rewrite <- HC in Hi.
    rewrite ttm_at by (rewrite ttm_lens, <- LC; auto). rewrite ttm_lens.
    rewrite (lset_other _ m1 m2) by auto.
    cbn [sumc]. rewrite !Hdm by auto. apply bigsum_ext. intros x2 Hx2. apply in_seq in Hx2.
    assert (Le : length idx = order T).
    { rewrite <- E, map_length, lset_length. auto. }
    assert (E1 : map (upd e (nth m2 s 0%Z) x2) s1 = lset idx m2 x2).
    { rewrite <- N2, (map_upd_lset e s1 m2 c2 x2), E by (auto; lia). auto. }
    rewrite ttm_at.
    2:{ assert (Hq : inb (lset (lens C) m2 (nth m2 (lens T) 0%nat)) (lset idx m2 x2)) by (apply inb_lset; auto; lia).
        rewrite LC, lset_lset in Hq. rewrite lset_comm in Hq by auto. rewrite lset_self in Hq. auto. }
    rewrite <- (bigsum_mul_r RL). apply bigsum_ext. intros x1 Hx1. apply in_seq in Hx1.
    unfold fg. cbn [bigprod fold_right snd fst]. rewrite (map_upd_lset (upd e (nth m2 s 0%Z) x2) s m1 c1 x1) by (auto; lia).
    fold s1. rewrite E1. cbn [map]. rewrite upd_same.
    rewrite (upd_other _ (nth m1 s 0%Z) x1 c1) by (intros Ec; rewrite <- Ec in In1; auto).
    rewrite (upd_other _ (nth m2 s 0%Z) x2 c1) by (intros Ec; rewrite <- Ec in In2; auto).
    rewrite (upd_other _ (nth m1 s 0%Z) x1 (nth m2 s 0%Z)) by auto. rewrite upd_same.
    rewrite (upd_other _ (nth m1 s 0%Z) x1 c2) by (intros Ec; rewrite <- Ec in In1; auto).
    rewrite (upd_other _ (nth m2 s 0%Z) x2 c2) by (intros Ec; rewrite <- Ec in In2; auto).
    assert (Ey2 : nth m2 idx 0%nat = e c2).
    { rewrite <- E. rewrite nth_map_lt with (d:=0%Z) by (rewrite lset_length; lia). rewrite lset_same by lia. auto. }
    assert (Ey1 : nth m1 (lset idx m2 x2) 0%nat = e c1).
    { rewrite lset_other by auto. rewrite <- E. rewrite nth_map_lt with (d:=0%Z) by (rewrite lset_length; lia).
      rewrite lset_other by auto. unfold s1. rewrite lset_same by lia. auto. }
    rewrite Ey2, Ey1. unfold el. ring.
Qed.
End P.
