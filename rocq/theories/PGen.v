(** Proofs about the generators and fold_unfold *)
From Coq Require Import List ZArith QArith Lia Bool Arith Permutation Ring.
From Verif Require Import Base Num Tensor Spec Spec5 Spec17 MCommon MCP MGen PBase PTensor PSum PMttkrp PMat PKhatri PBuildV PALS.
Import ListNotations.
Local Close Scope Q_scope.

Lemma fill_take {A} lo hi (g : nat -> A) (b : buf A) body :
  (forall j b', lo <= j < hi -> length b' = length b -> body j b' = bset b' (j - lo) (g j)) -> hi - lo <= length b ->
  exists b', for_ lo hi body b = Ok b' /\ length b' = length b /\
    (forall n, n <= hi - lo -> take n b' = Ok (map g (seq lo n))).
Proof.
  intros H HL. destruct (fill_for lo hi body 0 g b (length b)) as (b' & E & Lb & Pb); auto.
  exists b'. split; [auto|]. split; [auto|]. intros n Hn.
  rewrite (take_spec n b' (fun i => g (lo + i))).
  - f_equal. rewrite <- (map_map (fun i => lo + i) g). f_equal.
    clear. revert lo. induction n; intros lo; cbn; [auto|]. rewrite Nat.add_0_r. f_equal. rewrite <- seq_shift, map_map.
    rewrite <- (IHn (S lo)). apply map_ext. intros. lia.
  - intros i Hi. rewrite Pb. replace (i - 0) with i by lia. natcases. reflexivity.
Qed.

Section W.
Context {N : num}.
Local Open Scope num_scope.
Lemma write_spec (ps : list (nat * N)) : forall T : tensor N,
  NoDup (map fst ps) -> (forall g, In g (map fst ps) -> g < length (data T)) ->
  exists T', write T ps = Ok T' /\ lens T' = lens T /\ length (data T') = length (data T) /\
    (forall g v, In (g, v) ps -> nth g (data T') n0 = v) /\
    (forall g, ~ In g (map fst ps) -> nth g (data T') n0 = nth g (data T) n0).
Proof.
  induction ps as [|[g v] ps IH]; intros T Hn Hr; cbn [write].
  - exists T. repeat split; auto. intros g v [].
  - cbn [map fst] in Hn, Hr. inversion Hn as [|? ? Hg Hn']; subst.
    destruct (Nat.ltb_spec g (length (data T))); [|exfalso; specialize (Hr g (or_introl eq_refl)); lia].
    destruct (IH (mkT (lens T) (lset (data T) g v))) as (T' & E & H1 & H2 & H3 & H4); auto.
    { intros g' Hg'. cbn [data]. rewrite lset_length. apply Hr. right; auto. }
    cbn [lens data] in *. rewrite lset_length in H2. exists T'. rewrite E. repeat split; auto.
    + intros g' v' [Eq|Hin]; [|apply H3; auto]. injection Eq as <- <-. rewrite H4 by auto.
      rewrite lset_nth by auto. rewrite Nat.eqb_refl. auto.
    + intros g' Hg'. rewrite H4 by (intros Hc; apply Hg'; right; auto). rewrite lset_nth by auto.
      destruct (Nat.eqb_spec g' g); auto. exfalso. apply Hg'. left; auto.
Qed.
Lemma all_pairs_fst (T : tensor N) : map fst (all_pairs T) = seq 0 (length (data T)).
Proof.
  unfold all_pairs. assert (H : forall (l : list N) k, map fst (combine (seq k (length l)) l) = seq k (length l)).
  { induction l; intros; cbn; [auto|]. f_equal. auto. } apply H.
Qed.
Lemma all_pairs_in (T : tensor N) g v : In (g, v) (all_pairs T) <-> g < length (data T) /\ v = nth g (data T) n0.
Proof.
  unfold all_pairs. assert (H : forall (l : list N) k, In (g, v) (combine (seq k (length l)) l) <-> k <= g < k + length l /\ v = nth (g - k) l n0).
  { induction l as [|a l IH]; intros k; cbn [length seq combine In].
    - split; [intros []|intros [H _]; lia].
    - rewrite IH. split.
      + intros [E|[H1 H2]]; [injection E as <- <-; split; [lia|]; rewrite Nat.sub_diag; auto|].
        split; [lia|]. replace (g - k)%nat with (S (g - S k)) by lia. auto.
      + intros [H1 H2]. destruct (Nat.eq_dec k g) as [->|Hne].
        * left. rewrite Nat.sub_diag in H2. cbn in H2. subst. auto.
        * right. split; [lia|]. replace (g - k)%nat with (S (g - S k)) in H2 by lia. auto. }
  rewrite H. rewrite Nat.sub_0_r. split; intros [H1 H2]; split; auto; lia.
Qed.
(** fold_unfold, whatever the distribution *)
Lemma fold_ok (X Y : tensor N) ps : wf X -> wf Y -> size (lens X) = size (lens Y) -> Permutation ps (all_pairs X) ->
  fold_unfold ps Y = Ok (mkT (lens Y) (data X)).
Proof.
  intros HX HY Hs Hp. unfold wf in HX, HY. unfold fold_unfold.
  assert (Hf : Permutation (map fst ps) (seq 0 (length (data X)))) by (rewrite <- all_pairs_fst; apply Permutation_map; auto).
  destruct (write_spec ps Y) as (T' & E & H1 & H2 & H3 & H4).
  - eapply Permutation_NoDup; [symmetry; exact Hf|apply seq_NoDup].
  - intros g Hg. apply (Permutation_in g Hf) in Hg. apply in_seq in Hg. lia.
  - rewrite E. f_equal. destruct T' as [l' d']. cbn [lens data] in *. subst l'. f_equal.
    apply (nth_ext _ _ n0 n0); [lia|]. intros g Hg. apply H3. apply (Permutation_in _ (Permutation_sym Hp)).
    apply all_pairs_in. split; [lia|auto].
Qed.
Lemma write_bad (ps : list (nat * N)) : forall T : tensor N, (exists g, In g (map fst ps) /\ length (data T) <= g) -> write T ps = Err CtfError.
Proof.
  induction ps as [|[g v] ps IH]; intros T (g' & Hg & Hl); [destruct Hg|]. cbn [write].
  destruct (Nat.ltb_spec g (length (data T))); auto. apply IH. exists g'. cbn [data]. rewrite lset_length. split; auto.
  destruct Hg as [Hg|]; auto. cbn in Hg. lia.
Qed.
End W.

Section P.
Context {N : num} (RL : ring_laws N).
Let RT : ring_theory (@n0 N) n1 nadd nmul nsub nopp (@eq N) := RL.
Add Ring Nring : RT.
Local Open Scope num_scope.

Ltac ev := cbv -[nadd nmul nopp nsub n0 n1 bigsum at_ el seq car gram_at].
(** ** accumulate a product without contraction *)
Lemma outer_rep d (acc : bool) (C : tensor N) sC fg :
  NoDup sC -> lens C = map d sC -> fgrep d fg ->
  (forall c, In c (flat_map snd (map fst fg)) -> In c sC) ->
  (forall q, In q fg -> envext (snd q)) ->
  exists B, assign acc C sC [prodt (map fst fg)] = Ok B /\
    rep d B sC (fun e => if acc then at_ C (map e sC) + bigprod fg (fun q => snd q e) else bigprod fg (fun q => snd q e)).
Proof.
  intros Hs HC Hfg Hc Hx.
  destruct (assign_rep d acc C sC [prodt (map fst fg)] Hs HC) as (B & E & R).
  - intros t [<-|[]]. simpl. apply (fgrep_fit d fg); auto.
  - exists B. split; auto. eapply rep_ext; [exact R|]. intros e He. simpl.
    unfold prodt. rewrite (tval_rep RL d sC fg [] n1 e); auto.
    + cbn [sumc]. destruct acc; ring.
    + constructor.
    + intros c. split; [intros []|]. intros [H1 H2]. exfalso. auto.
Qed.

(** ** matrices of the Laplacian *)
Lemma ident_ok s : assign false (zeros [s; s]) [ch_i; ch_i] [mkTerm n1 []] = Ok (mid s : tensor N).
Proof.
  change (assign false (zeros [s; s]) [ch_i; ch_i] [mkTerm n1 []]) with (mk_regul s (n1 : N)). rewrite (mk_regul_ok RL).
  f_equal. apply tensor_ext; try apply tabulate_wf; auto. intros idx Hi.
  unfold mscal. rewrite at_tabulate by auto. ring.
Qed.
Lemma mid_el s i j : i < s -> j < s -> at_ (mid s : tensor N) [i; j] = delta i j.
Proof. intros. unfold mid, mdiag. rewrite at_tabulate by (apply inb2; auto). reflexivity. Qed.

Definition lapg (sd : nat -> nat -> N) (s : nat) : tensor N := tabulate [s; s] (fun x => sd (nth 0 x 0%nat) (nth 1 x 0%nat)).
Definition lapm (s : nat) : tensor N := lapg second_diff s.
Lemma lap_D_ok s : 1 <= s -> lap_D s = Ok (lapm s).
Proof.
  intros Hs. unfold lap_D.
  set (ps := map (fun row => ((row * s + row + 1)%nat, - n1)) (seq 0 (s - 1)) : list (nat * N)).
  assert (Hf : map fst ps = map (fun row => (row * s + row + 1)%nat) (seq 0 (s - 1))) by (unfold ps; rewrite map_map; apply map_ext; auto).
  assert (Hz : length (data (zeros [s; s] : tensor N)) = (s * s)%nat).
  { cbn [zeros tabulate data]. rewrite map_length, all_idx_length. cbn. lia. }
  destruct (write_spec ps (zeros [s; s])) as (D & E & H1 & H2 & H3 & H4).
  - rewrite Hf. apply NoDup_map_inj; [|apply seq_NoDup]. intros x y Hx Hy. nia.
  - intros g Hg. rewrite Hf in Hg. apply in_map_iff in Hg as (r & <- & Hr). apply in_seq in Hr. rewrite Hz. nia.
  - rewrite E. cbn [bind].
    assert (Del : forall i j, i < s -> j < s -> el D i j = if Nat.eqb i (j + 1) then - n1 else n0).
    { intros i j Hi Hj. unfold el, at_. rewrite H1. cbn [lens zeros tabulate lin]. replace (i + s * (j + s * 0))%nat with (i + s * j)%nat by lia.
      destruct (Nat.eqb_spec i (j + 1)).
      - apply H3. unfold ps. apply in_map_iff. exists j. split; [|apply in_seq; lia]. f_equal. nia.
      - rewrite H4.
        + change (nth (i + s * j) (data (zeros [s; s] : tensor N)) n0) with (nth (i + s * j) (data (zeros [s; s])) (n0 : N)).
          transitivity (at_ (zeros [s; s] : tensor N) [i; j]).
          * unfold at_. cbn [zeros tabulate lens lin]. f_equal. lia.
          * unfold zeros. rewrite at_tabulate by (apply inb2; auto). auto.
        + rewrite Hf. intros Hin. apply in_map_iff in Hin as (r & Er & Hr). apply in_seq in Hr.
          assert (r = j) by nia. subst. nia. }
    assert (HD : lens D = [s; s]) by (rewrite H1; reflexivity).
    replace (assign true D sij [prodt [(D, sji)]]) with (Ok (mk s s (fun i j => el D i j + el D j i))).
    2:{ symmetry. apply (assign_mat (fun _ => s) true D ch_i ch_j [prodt [(D, sji)]]).
        - discriminate.
        - auto.
        - intros t [<-|[]] p [<-|[]]. cbn. rewrite HD. auto.
        - intros i j Hi Hj. ev. unfold el. ring. }
    cbn [bind]. unfold assign. cbn [length Nat.eqb order lens mk tabulate forallb].
    replace (term_ok (mk s s (fun i j => el D i j + el D j i)) [ch_i; ch_i] (mkTerm (n1 + n1) [])) with true.
    2:{ unfold term_ok. cbn. rewrite !Nat.eqb_refl. reflexivity. }
    cbn [andb]. f_equal. apply tabulate_ext. intros idx Hi. apply inb2_inv in Hi as (i & j & -> & Hi & Hj).
    change (at_ (mk s s (fun i j => el D i j + el D j i)) [i; j]) with (el (mk s s (fun i j => el D i j + el D j i)) i j).
    rewrite el_mk by auto. rewrite !Del by auto.
    unfold addressed. cbn [combine consistent forallb assoc fst snd Z.eqb nth].
    change (ch_i =? ch_i)%Z with true. cbn iota. rewrite Nat.eqb_refl. cbn [andb]. rewrite andb_true_r.
    unfold second_diff. destruct (Nat.eqb_spec i j).
    + cbn [terms_val fold_left]. unfold term_val. cbn. ring.
    + destruct (Nat.eqb_spec i (j + 1)), (Nat.eqb_spec j (i + 1)); cbn [orb]; try ring. lia.
Qed.

(** ** strings of consecutive letters *)
Definition ab (a n : nat) : str := map chr (seq a n).
Lemma ab_len a n : length (ab a n) = n.
Proof. unfold ab. rewrite map_length, seq_length. auto. Qed.
Lemma ab_nodup a n : a + n <= 31 -> NoDup (ab a n).
Proof. intros H. apply NoDup_map_inj; [|apply seq_NoDup]. intros x y Hx Hy. apply in_seq in Hx, Hy. apply chr_inj; lia. Qed.
Lemma ab_app a n m : ab a (n + m) = ab a n ++ ab (a + n) m.
Proof. unfold ab. rewrite seq_app, map_app. auto. Qed.
Lemma ab_in a n c : In c (ab a n) <-> exists i, a <= i < a + n /\ c = chr i.
Proof.
  unfold ab. rewrite in_map_iff. split; intros (i & H1 & H2).
  - exists i. apply in_seq in H2. split; [lia|auto].
  - exists i. split; auto. apply in_seq. lia.
Qed.
Lemma ab_incl a n b m c : b <= a -> a + n <= b + m -> In c (ab a n) -> In c (ab b m).
Proof. intros H1 H2. rewrite !ab_in. intros (i & Hi & E). exists i. split; auto. lia. Qed.
Lemma nth_map_ab (e : env) a n l : l < n -> nth l (map e (ab a n)) 0%nat = e (chr (a + l)).
Proof.
  intros H. unfold ab. rewrite map_map, (nth_map_lt _ _ _ 0%nat) by (rewrite seq_length; auto). rewrite nth_seq by auto. auto.
Qed.
(** every in-range index list is read through an environment *)
Lemma rep_at s (T : tensor N) a n G : rep (fun _ => s) T (ab a n) G -> a + n <= 31 -> forall x, inb (repeat s n) x ->
  exists e, map e (ab a n) = x /\ at_ T x = G e /\ forall l, l < n -> e (chr (a + l)) = nth l x 0%nat.
Proof.
  intros (H1 & H2 & H3) Hn x Hx.
  assert (El : map (fun _ : Z => s) (ab a n) = repeat s n).
  { unfold ab. rewrite map_map. clear. revert a. induction n; intros; cbn; [auto|]. f_equal. apply IHn. }
  destruct (inb_env (fun _ => s) (ab a n) x) as (e & E & Hr); [apply ab_nodup; auto|rewrite El; auto|].
  exists e. split; [auto|]. split; [rewrite <- E; apply H3; auto|].
  intros l Hl. rewrite <- E. rewrite nth_map_ab by auto. auto.
Qed.
Lemma const_lens (s : nat) (l : str) : map (fun _ : Z => s) l = repeat s (length l).
Proof. induction l; cbn; [auto|]. f_equal. auto. Qed.

(** ** the identity tensor *)
Definition identT (m s : nat) : tensor N := tabulate (repeat s (2 * m)) (ident_at m).
Lemma ident_at_S m x y t : ident_at (S m) (x :: y :: t) = delta x y * (ident_at m t : N).
Proof.
  unfold ident_at. cbn [seq bigprod fold_right]. unfold prow at 1, pcol at 1. cbn [Nat.mul Nat.add nth]. f_equal.
  rewrite <- seq_shift. change (fold_right (fun x0 a => delta (prow (x :: y :: t) x0) (pcol (x :: y :: t) x0) * a) n1 (map S (seq 0 m)))
    with (bigprod (map S (seq 0 m)) (fun l => delta (prow (x :: y :: t) l) (pcol (x :: y :: t) l) : N)).
  rewrite bigprod_map. apply bigprod_ext. intros l _. unfold prow, pcol.
  replace (2 * S l)%nat with (S (S (2 * l))) by lia. replace (S (S (2 * l)) + 1)%nat with (S (S (2 * l + 1))) by lia. auto.
Qed.
Lemma identT_rep m s (sq : str) : length sq = (2 * m)%nat -> rep (fun _ => s) (identT m s) sq (fun e => ident_at m (map e sq)).
Proof.
  intros HL. split; [apply tabulate_wf|]. split; [cbn; rewrite const_lens, HL; auto|].
  intros e He. unfold identT. rewrite at_tabulate; auto. rewrite <- HL, <- const_lens. apply inb_map; auto.
Qed.
Lemma ident_env m sq : envext (fun e => ident_at m (map e sq) : N).
Proof. intros e e' H. f_equal. apply map_ext. auto. Qed.
Lemma mid_rep s a b : rep (fun _ => s) (mid s : tensor N) [a; b] (fun e => delta (e a) (e b)).
Proof.
  split; [apply tabulate_wf|]. split; [reflexivity|]. intros e He. cbn [map]. apply mid_el; apply He; cbn; auto.
Qed.
Lemma new_cube (n s : nat) b : (forall k, k <= n -> take k b = Ok (map (fun _ => s) (seq 0 k))) -> new_tensor n b = Ok (zeros (repeat s n) : tensor N).
Proof.
  intros H. unfold new_tensor. rewrite H by auto. cbn [bind]. do 2 f_equal. generalize 0%nat. clear. induction n; intros; cbn; [auto|]. f_equal. auto.
Qed.

Lemma ident_step_ok s i : 1 <= i -> 2 * i + 2 <= 31 -> ident_step s (mid s) i (identT i s) = Ok (identT (i + 1) s).
Proof.
  intros Hi Hn. unfold ident_step.
  destruct (fill_take 0 (2 * i + 2) (fun _ => s) (newbuf (2 * i + 2)) (fun jj b => bset b jj s)) as (b1 & E1 & L1 & T1).
  { intros. rewrite Nat.sub_0_r. auto. } { rewrite newbuf_length. lia. }
  rewrite E1. cbn [bind]. rewrite (new_cube (2 * i + 2) s b1) by (intros; apply T1; lia). cbn [bind].
  rewrite (bset_ok (newbuf (2 * i + 1))) by (rewrite newbuf_length; lia). cbn [bind].
  rewrite (bset_ok (newbuf (2 * i + 3))) by (rewrite newbuf_length; lia). cbn [bind].
  destruct (fill_take 0 (2 * i + 2) chr (lset (newbuf (2 * i + 3)) (2 * i + 2) (Some 0%Z)) (fun jj b => bset b jj (chr jj))) as (b2 & E2 & L2 & T2).
  { intros. rewrite Nat.sub_0_r. auto. } { rewrite lset_length, newbuf_length. lia. }
  rewrite E2. cbn [bind].
  destruct (fill_take 2 (2 * i + 2) chr (lset (newbuf (2 * i + 1)) (2 * i) (Some 0%Z)) (fun jj b => bset b (jj - 2) (chr jj))) as (b3 & E3 & L3 & T3).
  { auto. } { rewrite lset_length, newbuf_length. lia. }
  rewrite E3. cbn [bind]. unfold assign_b, tixs, tix.
  cbn [order zeros tabulate lens identT mid mdiag length]. rewrite !repeat_length. rewrite (T2 (2 * i + 2)%nat) by lia. cbn [bind].
  rewrite (T3 (2 * i)%nat) by lia. cbn [bind take lit map bget app]. change (chr 0) with 97%Z. change (chr 1) with 98%Z. cbn [take bind].
  change (map chr (seq 0 (2 * i + 2))) with (ab 0 (2 * i + 2)). change (map chr (seq 2 (2 * i))) with (ab 2 (2 * i)).
  destruct (outer_rep (fun _ => s) false (zeros (repeat s (2 * i + 2))) (ab 0 (2 * i + 2))
     [((identT i s, ab 2 (2 * i)), fun e => ident_at i (map e (ab 2 (2 * i)))); ((mid s, [97%Z; 98%Z]), fun e => delta (e 97%Z) (e 98%Z))]) as (B & EB & RB).
  - apply ab_nodup. lia.
  - cbn [lens zeros tabulate]. rewrite const_lens, ab_len. auto.
  - constructor; [apply identT_rep, ab_len|]. constructor; [apply mid_rep|constructor].
  - intros c Hc. cbn [map fst flat_map snd] in Hc. apply in_app_or in Hc as [Hc|[<-|[<-|[]]]].
    + eapply ab_incl; [| |exact Hc]; lia.
    + apply ab_in. exists 0%nat. split; [lia|auto].
    + apply ab_in. exists 1%nat. split; [lia|auto].
  - intros q [<-|[<-|[]]]; [apply ident_env|]. intros e e' H. cbn [snd]. rewrite !H. auto.
  - cbn [map fst] in EB. rewrite EB. f_equal. destruct RB as (R1 & R2 & R3).
    assert (HLB : lens B = repeat s (2 * (i + 1))) by (rewrite R2, const_lens, ab_len; f_equal; lia).
    apply tensor_ext; auto; [apply tabulate_wf|]. intros x Hx. rewrite HLB in Hx.
    destruct (rep_at s B 0 (2 * i + 2) _ (conj R1 (conj R2 R3)) ltac:(lia) x) as (e & Ee & Ea & Hl).
    { replace (2 * i + 2)%nat with (2 * (i + 1))%nat by lia. auto. }
    rewrite Ea. unfold identT. rewrite at_tabulate by auto. cbn [bigprod fold_right snd].
    rewrite <- Ee. replace (2 * i + 2)%nat with (S (S (2 * i))) by lia. unfold ab at 2. cbn [seq map].
    replace (i + 1)%nat with (S i) by lia. rewrite ident_at_S. change (map chr (seq 2 (2 * i))) with (ab 2 (2 * i)). change (chr 0) with 97%Z. change (chr 1) with 98%Z. ring.
Qed.
Lemma identity_ok m s : 1 <= m -> 2 * m <= 31 -> identity_tensor (2 * m) s = Ok (identT m s).
Proof.
  intros Hm Hn. unfold identity_tensor. rewrite ident_ok. cbn [bind].
  replace (2 * m / 2)%nat with m by (rewrite Nat.mul_comm, Nat.div_mul; lia).
  assert (E1 : mid s = identT 1 s).
  { apply tensor_ext; try apply tabulate_wf; auto. intros x Hx. apply inb2_inv in Hx as (i & j & -> & Hi & Hj).
    rewrite mid_el by auto. unfold identT. rewrite at_tabulate by (apply inb2; auto). rewrite ident_at_S. unfold ident_at. cbn. ring. }
  destruct (for_inv (fun i T => T = identT i s) (ident_step s (mid s)) 1 m (mid s)) as (T & E & HT); auto.
  - intros j T Hj ->. exists (identT (j + 1) s). rewrite ident_step_ok by lia. split; auto. f_equal. lia.
  - rewrite E. subst. auto.
Qed.

(** ** the Laplacian, for any matrix D with entries sd *)
Section Sd.
Context (sd : nat -> nat -> N).
Lemma lapm_rep s a b : rep (fun _ => s) (lapg sd s) [a; b] (fun e => sd (e a) (e b)).
Proof.
  split; [apply tabulate_wf|]. split; [reflexivity|]. intros e He. cbn [map]. unfold lapg. rewrite at_tabulate; [auto|].
  apply inb2; apply He; cbn; auto.
Qed.
Definition lap_term (d k : nat) (x : list nat) : N :=
  bigprod (seq 0 d) (fun l => if Nat.eqb l k then sd (prow x l) (pcol x l) else delta (prow x l) (pcol x l)).
Lemma ident_at_map m a (e : env) : ident_at m (map e (ab a (2 * m))) = bigprod (seq 0 m) (fun l => delta (e (chr (a + 2 * l))) (e (chr (a + 2 * l + 1))) : N).
Proof.
  unfold ident_at. apply bigprod_ext. intros l Hl. apply in_seq in Hl. unfold prow, pcol.
  rewrite !nth_map_ab by lia. rewrite Nat.add_assoc. auto.
Qed.
Lemma bigprod_shift (f : nat -> N) m k : bigprod (seq k m) f = bigprod (seq 0 m) (fun l => f (k + l)%nat).
Proof.
  revert k. induction m; intros; cbn; [auto|]. rewrite Nat.add_0_r. f_equal.
  change (bigprod (seq (S k) m) f = bigprod (seq 1 m) (fun l => f (k + l)%nat)).
  rewrite IHm. rewrite <- seq_shift, bigprod_map. apply bigprod_ext. intros. f_equal. lia.
Qed.
Lemma lap_term_split d k (e : env) : k < d ->
  lap_term d k (map e (ab 0 (2 * d))) =
  ident_at k (map e (ab 0 (2 * k))) * (sd (e (chr (2 * k))) (e (chr (2 * k + 1))) * ident_at (d - k - 1) (map e (ab (2 * k + 2) (2 * (d - k - 1))))).
Proof.
  intros Hk. unfold lap_term. rewrite !ident_at_map.
  replace d with (k + (1 + (d - k - 1)))%nat at 1 by lia. rewrite seq_app, (bigprod_app RL). f_equal.
  - apply bigprod_ext. intros l Hl. apply in_seq in Hl. destruct (Nat.eqb_spec l k); [lia|]. unfold prow, pcol. rewrite !nth_map_ab by lia. auto.
  - rewrite seq_app, (bigprod_app RL). f_equal.
    + cbn [seq bigprod fold_right Nat.add]. rewrite Nat.eqb_refl. unfold prow, pcol. rewrite !nth_map_ab by lia. cbn [Nat.add]. ring.
    + rewrite bigprod_shift. apply bigprod_ext. intros l Hl. apply in_seq in Hl.
      destruct (Nat.eqb_spec (0 + k + 1 + l) k); [lia|]. unfold prow, pcol. rewrite !nth_map_ab by lia.
      f_equal; f_equal; f_equal; lia.
Qed.
Lemma add_ok (V : tensor N) s n sq fg (bs : list (buf Z)) (F : list nat -> N) :
  n <= 31 -> wf V -> lens V = repeat s n -> take n sq = Ok (ab 0 n) ->
  fgrep (fun _ => s) fg -> (forall c, In c (flat_map snd (map fst fg)) -> In c (ab 0 n)) ->
  (forall q, In q fg -> envext (snd q)) ->
  tixs (combine (map fst (map fst fg)) bs) = Ok (map fst fg) ->
  (forall e, bigprod fg (fun q => snd q e) = F (map e (ab 0 n))) ->
  add_b V sq (combine (map fst (map fst fg)) bs) = Ok (tabulate (repeat s n) (fun x => at_ V x + F x)).
Proof.
  intros Hn HV HL Hsq Hfg Hin Hx Ht HF. unfold add_b. unfold order. rewrite HL, repeat_length, Hsq. cbn [bind]. rewrite Ht. cbn [bind].
  destruct (outer_rep (fun _ => s) true V (ab 0 n) fg) as (B & EB & RB); auto.
  - apply ab_nodup. lia.
  - rewrite const_lens, ab_len. auto.
  - rewrite EB. f_equal. assert (HLB : lens B = repeat s n) by (destruct RB as (_ & R2 & _); rewrite R2, const_lens, ab_len; auto).
    apply tensor_ext; [apply RB|apply tabulate_wf|auto|]. intros x Hx'. rewrite HLB in Hx'.
    destruct (rep_at s B 0 n _ RB ltac:(lia) x Hx') as (e & Ee & Ea & _). rewrite Ea, at_tabulate by auto. rewrite HF. rewrite Ee. auto.
Qed.
Lemma second_env a b : envext (fun e => sd (e a) (e b) : N).
Proof. intros e e' H. rewrite !H. auto. Qed.

Lemma lap_sum_ok (V : tensor N) d s : 2 <= d -> 2 * d <= 31 -> 1 <= s -> wf V -> lens V = repeat s (2 * d) ->
  lap_sum (lapg sd s) V (2 * d) s = Ok (tabulate (repeat s (2 * d)) (fun x => at_ V x + grid_sum sd d x)).
Proof.
  intros Hd Hn Hs HV HL. unfold lap_sum.
  replace (2 * d / 2)%nat with d by (rewrite Nat.mul_comm, Nat.div_mul; lia).
  rewrite (bset_ok (newbuf (2 * d + 1))) by (rewrite newbuf_length; lia). cbn [bind].
  destruct (fill_take 0 (2 * d) chr (lset (newbuf (2 * d + 1)) (2 * d) (Some 0%Z)) (fun jj b => bset b jj (chr jj))) as (sq & E1 & L1 & T1).
  { intros. rewrite Nat.sub_0_r. auto. } { rewrite lset_length, newbuf_length. lia. }
  assert (T1' : take (2 * d) sq = Ok (ab 0 (2 * d))) by (apply T1; lia).
  rewrite E1. cbn [bind]. replace (2 * d - 2)%nat with (2 * (d - 1))%nat by lia.
  rewrite identity_ok by lia. cbn [bind].
  rewrite (bset_ok (newbuf (2 * d - 1))) by (rewrite newbuf_length; lia). cbn [bind].
  destruct (fill_take 2 (2 * d) chr (lset (newbuf (2 * d - 1)) (2 * (d - 1)) (Some 0%Z)) (fun jj b => bset b (jj - 2) (chr jj))) as (sI2 & E2 & L2 & T2).
  { auto. } { rewrite lset_length, newbuf_length. lia. }
  rewrite E2. cbn [bind].
  change (lit [chr 0; chr 1]) with [Some 97%Z; Some 98%Z; Some 0%Z].
  assert (Ordi : forall m, order (identT m s) = (2 * m)%nat) by (intros; unfold order, identT; cbn [lens tabulate]; apply repeat_length).
  (* k = 1 *)
  pose proof (add_ok V s (2 * d) sq
    [((lapg sd s, ab 0 2), fun e => sd (e (chr 0)) (e (chr 1))); ((identT (d - 1) s, ab 2 (2 * (d - 1))), fun e => ident_at (d - 1) (map e (ab 2 (2 * (d - 1)))))]
    [[Some 97%Z; Some 98%Z; Some 0%Z]; sI2] (lap_term d 0)) as A1.
  cbn [map fst combine] in A1. rewrite A1; clear A1; auto.
  2:{ constructor; [apply lapm_rep|]. constructor; [apply identT_rep, ab_len|constructor]. }
  2:{ intros c Hc. cbn [flat_map snd] in Hc. rewrite app_nil_r in Hc. apply in_app_or in Hc as [Hc|Hc]; (eapply ab_incl; [| |exact Hc]; lia). }
  2:{ intros q [<-|[<-|[]]]; [apply second_env|apply ident_env]. }
  2:{ cbn [tixs]. unfold tix. change (order (lapg sd s)) with 2%nat. cbn [take bind]. rewrite Ordi, (T2 (2 * (d - 1))%nat) by lia. reflexivity. }
  2:{ intros e. rewrite (lap_term_split d 0) by lia. cbn [bigprod fold_right snd]. unfold ident_at at 2. cbn [seq bigprod fold_right Nat.mul Nat.add].
      replace (d - 0 - 1)%nat with (d - 1)%nat by lia. ring. }
  cbn [bind]. set (V1 := tabulate (repeat s (2 * d)) (fun x => at_ V x + lap_term d 0 x)).
  destruct (fill_take 0 (2 * (d - 1)) chr (lset (newbuf (2 * d - 1)) (2 * (d - 1)) (Some 0%Z)) (fun jj b => bset b jj (chr jj))) as (sI1 & E3 & L3 & T3).
  { intros. rewrite Nat.sub_0_r. auto. } { rewrite lset_length, newbuf_length. lia. }
  rewrite E3. cbn [bind].
  destruct (fill_take (2 * (d - 1)) (2 * d) chr [Some 97%Z; Some 98%Z; Some 0%Z] (fun jj b => bset b (jj - 2 * (d - 1)) (chr jj))) as (sD & E4 & L4 & T4).
  { auto. } { cbn. lia. }
  rewrite E4. cbn [bind].
  pose proof (add_ok V1 s (2 * d) sq
    [((identT (d - 1) s, ab 0 (2 * (d - 1))), fun e => ident_at (d - 1) (map e (ab 0 (2 * (d - 1)))));
     ((lapg sd s, ab (2 * (d - 1)) 2), fun e => sd (e (chr (2 * (d - 1)))) (e (chr (2 * (d - 1) + 1))))]
    [sI1; sD] (lap_term d (d - 1))) as A2.
  cbn [map fst combine] in A2. rewrite A2; clear A2; auto.
  2:{ apply tabulate_wf. }
  2:{ constructor; [apply identT_rep, ab_len|]. constructor; [|constructor]. unfold ab. cbn [seq map]. replace (S (2 * (d - 1))) with (2 * (d - 1) + 1)%nat by lia. apply lapm_rep. }
  2:{ intros c Hc. cbn [flat_map snd] in Hc. rewrite app_nil_r in Hc. apply in_app_or in Hc as [Hc|Hc]; (eapply ab_incl; [| |exact Hc]; lia). }
  2:{ intros q [<-|[<-|[]]]; [apply ident_env|apply second_env]. }
  2:{ cbn [tixs]. unfold tix. rewrite Ordi, (T3 (2 * (d - 1))%nat) by lia. cbn [bind]. change (order (lapg sd s)) with 2%nat. rewrite (T4 2%nat) by lia. reflexivity. }
  2:{ intros e. rewrite (lap_term_split d (d - 1)) by lia. cbn [bigprod fold_right snd]. replace (d - (d - 1) - 1)%nat with 0%nat by lia.
      unfold ident_at at 3. cbn [seq bigprod fold_right]. ring. }
  cbn [bind].
  (* the other directions *)
  destruct (for_inv (fun k (st : tensor N * buf Z) => length (snd st) = 3%nat /\
      fst st = tabulate (repeat s (2 * d)) (fun x => at_ V x + (lap_term d 0 x + lap_term d (d - 1) x + bigsum (seq 1 (k - 2)) (fun j => lap_term d j x))))
    (lap_step d s (lapg sd s) sq) 2 d (tabulate (repeat s (2 * d)) (fun x => at_ V1 x + lap_term d (d - 1) x), sD)) as ((V2 & sD2) & E5 & (_ & HV2)).
  - lia.
  - split; [auto|]. cbn [fst]. apply tabulate_ext. intros x Hx. unfold V1. rewrite at_tabulate by auto. cbn [Nat.sub seq bigsum fold_right]. ring.
  - intros k (Vk & sDk) Hk (Lk & EVk). cbn [fst snd] in *. unfold lap_step.
    rewrite !identity_ok by lia. cbn [bind].
    rewrite (bset_ok (newbuf (2 * (k - 1) + 1))) by (rewrite newbuf_length; lia). cbn [bind].
    rewrite (bset_ok (newbuf (2 * (d - k) + 1))) by (rewrite newbuf_length; lia). cbn [bind].
    destruct (fill_take 0 (2 * (k - 1)) chr (lset (newbuf (2 * (k - 1) + 1)) (2 * (k - 1)) (Some 0%Z)) (fun jj b => bset b jj (chr jj))) as (t1 & F1 & M1 & U1).
    { intros. rewrite Nat.sub_0_r. auto. } { rewrite lset_length, newbuf_length. lia. }
    rewrite F1. cbn [bind].
    destruct (fill_take (2 * (k - 1)) (2 * k) chr sDk (fun jj b => bset b (jj - 2 * (k - 1)) (chr jj))) as (t2 & F2 & M2 & U2).
    { auto. } { rewrite Lk. lia. }
    rewrite F2. cbn [bind].
    destruct (fill_take (2 * k) (2 * d) chr (lset (newbuf (2 * (d - k) + 1)) (2 * (d - k)) (Some 0%Z)) (fun jj b => bset b (jj - 2 * k) (chr jj))) as (t3 & F3 & M3 & U3).
    { auto. } { rewrite lset_length, newbuf_length. lia. }
    rewrite F3. cbn [bind].
    pose proof (add_ok Vk s (2 * d) sq
      [((identT (k - 1) s, ab 0 (2 * (k - 1))), fun e => ident_at (k - 1) (map e (ab 0 (2 * (k - 1)))));
       ((lapg sd s, ab (2 * (k - 1)) 2), fun e => sd (e (chr (2 * (k - 1)))) (e (chr (2 * (k - 1) + 1))));
       ((identT (d - k) s, ab (2 * k) (2 * (d - k))), fun e => ident_at (d - k) (map e (ab (2 * k) (2 * (d - k)))))]
      [t1; t2; t3] (lap_term d (k - 1))) as A3.
    cbn [map fst combine] in A3. rewrite A3; clear A3; auto.
    + eexists. split; [reflexivity|]. cbn [fst snd]. split; [congruence|]. apply tabulate_ext. intros x Hx.
      rewrite EVk, at_tabulate by auto. replace (S k - 2)%nat with (S (k - 2)) by lia. rewrite seq_S, (bigsum_app RL). cbn [bigsum fold_right].
      replace (1 + (k - 2))%nat with (k - 1)%nat by lia. ring.
    + rewrite EVk. apply tabulate_wf.
    + rewrite EVk. reflexivity.
    + constructor; [apply identT_rep, ab_len|]. constructor; [|constructor; [apply identT_rep, ab_len|constructor]].
      unfold ab. cbn [seq map]. replace (S (2 * (k - 1))) with (2 * (k - 1) + 1)%nat by lia. apply lapm_rep.
    + intros c Hc. cbn [flat_map snd] in Hc. rewrite app_nil_r in Hc. apply in_app_or in Hc as [Hc|Hc]; [|apply in_app_or in Hc as [Hc|Hc]]; (eapply ab_incl; [| |exact Hc]; lia).
    + intros q [<-|[<-|[<-|[]]]]; [apply ident_env|apply second_env|apply ident_env].
    + cbn [tixs]. unfold tix. rewrite !Ordi, (U1 (2 * (k - 1))%nat) by lia. cbn [bind]. change (order (lapg sd s)) with 2%nat. rewrite (U2 2%nat) by lia. cbn [bind].
      rewrite (U3 (2 * (d - k))%nat) by lia. reflexivity.
    + intros e. rewrite (lap_term_split d (k - 1)) by lia. cbn [bigprod fold_right snd].
      replace (d - (k - 1) - 1)%nat with (d - k)%nat by lia. replace (2 * (k - 1) + 2)%nat with (2 * k)%nat by lia. ring.
  - rewrite E5. cbn [bind]. cbn [fst] in HV2. rewrite HV2. f_equal. apply tabulate_ext. intros x Hx. f_equal.
    unfold grid_sum. change (bigsum (seq 0 d) (fun k => bigprod (seq 0 d) (fun l => if Nat.eqb l k then sd (prow x l) (pcol x l) else delta (prow x l) (pcol x l)))) with (bigsum (seq 0 d) (fun k => lap_term d k x)).
    assert (Es : seq 0 d = [0%nat] ++ seq 1 (d - 2) ++ [(d - 1)%nat]).
    { replace d with (1 + ((d - 2) + 1))%nat at 1 by lia. rewrite seq_app, seq_app. cbn [seq Nat.add app]. do 3 f_equal. lia. }
    rewrite Es, !(bigsum_app RL). cbn [bigsum fold_right].
    change (fold_right (fun x0 a => lap_term d x0 x + a) n0 (seq 1 (d - 2))) with (bigsum (seq 1 (d - 2)) (fun j => lap_term d j x)). ring.
Qed.
End Sd.
Lemma laplacian_ok (V : tensor N) d s : 2 <= d -> 2 * d <= 31 -> 1 <= s -> wf V -> lens V = repeat s (2 * d) ->
  laplacian_tensor V (2 * d) s = Ok (tabulate (repeat s (2 * d)) (fun x => at_ V x + laplace_at d x)).
Proof.
  intros Hd Hn Hs HV HL. unfold laplacian_tensor. destruct (Nat.ltb_spec (2 * d) 2); [lia|]. rewrite lap_D_ok by auto. cbn [bind].
  unfold lapm. rewrite lap_sum_ok by auto. reflexivity.
Qed.
End P.
