(** TTMc, unfolding Gram matrix, HOSVD *)
From Coq Require Import List ZArith Lia Bool Arith Permutation Ring.
From Verif Require Import Base Num Tensor Spec Spec7 MCommon MCP MTucker PBase PTensor PSum PMttkrp PPart PMat PKhatri PGrad PDrivers PBuildV PTtm.
Import ListNotations.

(** ** index-string buffers *)
Definition sb (s : str) : buf Z := map Some (s ++ [0%Z]).
Lemma lbuf_sb o : lbuf o = sb (letters chr o).
Proof. reflexivity. Qed.
Lemma sb_bset s m c : m < length s -> bset (sb s) m c = Ok (sb (lset s m c)).
Proof.
  intros H. unfold sb. rewrite bset_ok by (rewrite map_length, app_length; simpl; lia). f_equal.
  rewrite <- map_lset. f_equal. revert m H. induction s as [|x s IH]; intros m H; simpl in H; [lia|].
  destruct m; simpl; auto. f_equal. apply IH. lia.
Qed.
Lemma sb_take n s : n = length s -> take n (sb s) = Ok s.
Proof.
  intros ->. apply take_list with (d:=0%Z); auto. intros i Hi. unfold sb. rewrite nth_error_map.
  rewrite nth_error_app1 by auto. rewrite (nth_error_nth_some _ _ 0%Z) by auto. auto.
Qed.
Lemma lit_sb s : lit s = sb s.
Proof. unfold lit, sb. rewrite map_app. auto. Qed.
Lemma letters_len f o : length (letters f o) = o.
Proof. unfold letters. rewrite map_length, seq_length. auto. Qed.
Lemma letters_nth f o i d : i < o -> nth i (letters f o) d = f i.
Proof. intros. unfold letters. rewrite (nth_map_lt _ _ _ 0%nat) by (rewrite seq_length; auto). rewrite nth_seq; auto. Qed.
Lemma letters_chr_nodup o : o <= 31 -> NoDup (letters chr o).
Proof.
  intros Ho. unfold letters. apply NoDup_map_inj; [|apply seq_NoDup]. intros x y Hx Hy. apply in_seq in Hx, Hy. apply chr_inj; lia.
Qed.
Lemma letters_chr_in o c : o <= 31 -> In c (letters chr o) -> exists i, i < o /\ c = (97 + Z.of_nat i)%Z.
Proof.
  intros Ho H. unfold letters in H. apply in_map_iff in H as (i & <- & Hi). apply in_seq in Hi.
  exists i. rewrite chr_small by lia. split; [lia|auto].
Qed.
Lemma lset_restore (s : str) m c d : lset (lset s m c) m (nth m s d) = s.
Proof. rewrite lset_lset. apply lset_self. Qed.

Definition contracted_modes (i : option nat) (o : nat) : list nat :=
  match i with Some n => others n o | None => seq 0 o end.

Section P.
Context {N : num} (RL : ring_laws N) (LA : lapack N).
Let RT : ring_theory (@n0 N) n1 nadd nmul nsub nopp (@eq N) := RL.
Add Ring NringT : RT.
Local Open Scope num_scope.

Lemma assign_b_sb2 (C T A : tensor N) sC sT sA :
  order C = length sC -> order T = length sT -> order A = length sA ->
  assign_b C (sb sC) [(T, sb sT); (A, lit sA)] = assign false C sC [prodt [(T, sT); (A, sA)]].
Proof.
  intros H1 H2 H3. apply assign_b_ok; [apply sb_take; auto|]. apply tixs2; [apply sb_take; auto|]. rewrite lit_sb. apply sb_take; auto.
Qed.
Lemma assign_b_sb1 (C T : tensor N) sC sT :
  order C = length sC -> order T = length sT ->
  assign_b C (sb sC) [(T, sb sT)] = assign false C sC [prodt [(T, sT)]].
Proof.
  intros H1 H2. apply assign_b_ok; [apply sb_take; auto|]. simpl. unfold tix. rewrite (sb_take _ sT) by auto. auto.
Qed.
Lemma mat_order (A : tensor N) r c : is_mat A r c -> order A = 2%nat.
Proof. intros [H _]. unfold order. rewrite H. auto. Qed.
Lemma mat_ncol (A : tensor N) r c : is_mat A r c -> ncol A = c.
Proof. intros [H _]. unfold ncol. rewrite H. auto. Qed.
Lemma mat_nrow (A : tensor N) r c : is_mat A r c -> nrow A = r.
Proof. intros [H _]. unfold nrow. rewrite H. auto. Qed.

(** factor m can be multiplied on mode m *)
Definition shapes (V : tensor N) (W : list (tensor N)) : Prop :=
  wf V /\ length W = order V /\ forall m, m < order V -> is_mat (fac W m) (nth m (lens V) 0%nat) (ncol (fac W m)).
Lemma tucker_shapes V W ranks : tucker_ok V W ranks -> shapes V W.
Proof.
  intros (H1 & H2 & _ & H3). split; auto. split; auto. intros m Hm. rewrite (mat_ncol _ _ _ (H3 m Hm)). auto.
Qed.

(** one contraction with the letter c *)
Lemma ttm_step acc (C V : tensor N) W ms m c :
  shapes V W -> order V <= 31 -> m < order V -> ~ In m ms -> ~ In c (letters chr (order V)) ->
  lens C = lset (ttmc_lens V W ms) m (ncol (fac W m)) ->
  assign acc C (lset (letters chr (order V)) m c) [prodt [(ttmc V W ms, letters chr (order V)); (fac W m, [chr m; c])]]
  = Ok (if acc then tadd C (ttmc V W (m :: ms)) else ttmc V W (m :: ms)).
Proof.
  intros (HV & LW & HW) Ho Hm Hn Hc LC.
  assert (En : chr m = nth m (letters chr (order V)) 0%Z) by (symmetry; apply letters_nth; auto). rewrite En.
  rewrite (assign_ttm RL acc C (ttmc V W ms) (fac W m) (letters chr (order V)) m c).
  - rewrite (ttm_ttmc RL) by auto. auto.
  - apply letters_chr_nodup; auto.
  - rewrite letters_len, ttmc_order. auto.
  - rewrite ttmc_order. auto.
  - auto.
  - apply ttmc_wf.
  - cbn [ttmc tabulate lens]. rewrite ttmc_lens_nth, existsb_not by auto. auto.
  - auto.
Qed.

Lemma k_fresh o : o <= 10 -> ~ In ch_k (letters chr o).
Proof. intros Ho H. apply letters_chr_in in H as (i & Hi & E); [|lia]. unfold ch_k in E. lia. Qed.
Lemma star_fresh o : o <= 31 -> ~ In ch_star (letters chr o).
Proof. intros Ho H. apply letters_chr_in in H as (i & Hi & E); [|lia]. unfold ch_star in E. lia. Qed.
Lemma hat_fresh o : o <= 31 -> ~ In ch_hat (letters chr o).
Proof. intros Ho H. apply letters_chr_in in H as (i & Hi & E); [|lia]. unfold ch_hat in E. lia. Qed.

(** ** TTMc *)
Theorem TTMc_ok (Y V : tensor N) W i : shapes V W -> order V <= 10 ->
  contracted_modes i (order V) <> [] ->
  TTMc Y V W i = Ok (ttmc V W (contracted_modes i (order V))).
Proof.
  intros HS Ho Hne. pose proof HS as (HV & LW & HW). set (o := order V) in *. unfold TTMc. fold o.
  rewrite mk_seqV_ok. cbn [bind]. 
  set (ms := fun j => filter (fun m => negb (is_mode i m)) (seq 0 j)).
  assert (Hms : forall j m, In m (ms j) <-> m < j /\ is_mode i m = false).
  { intros j m. unfold ms. rewrite filter_In, in_seq. destruct (is_mode i m); cbn; intuition (try lia; congruence). }
  match goal with |- bind (for_ 0 o ?body ?st0) _ = _ =>
    destruct (for_inv (fun j st => let '(Y', Vt, lY, sq) := st in sq = lbuf o /\ Vt = ttmc V W (ms j) /\ lY = lens Vt /\ (ms j <> [] -> Y' = Vt))
      body 0%nat o st0) as ([[[Y' Vt] lY] sq] & E & _ & HVt & _ & HY) end.
  - lia.
  - split; auto. split; [cbn [ms seq filter]; rewrite (ttmc_nil RL) by auto; auto|]. split; auto. intros H. exfalso. apply H. reflexivity.
  - intros j [[[Y' Vt] lY] sq] Hj (-> & -> & -> & HY').
    assert (Hmj : ms (S j) = ms j ++ (if is_mode i j then [] else [j])).
    { unfold ms. rewrite seq_S, filter_app. cbn [Nat.add filter]. destruct (is_mode i j); auto. }
    destruct (is_mode i j) eqn:Ei.
    + eexists; split; [reflexivity|]. rewrite Hmj, app_nil_r. auto.
    + rewrite lbuf_sb. rewrite sb_bset by (rewrite letters_len; lia). cbn [bind].
      rewrite (lget_ok W j tnil) by lia. cbn [bind]. fold (fac W j).
      assert (Hlen : length (lens (ttmc V W (ms j))) = o) by apply ttmc_order.
      rewrite lput_ok by lia. cbn [bind].
      rewrite assign_b_sb2.
      2:{ unfold order. cbn [zeros tabulate lens]. rewrite !lset_length, letters_len. auto. }
      2:{ rewrite letters_len. apply ttmc_order. }
      2:{ apply (mat_order _ _ _ (HW j ltac:(lia))). }
      assert (Hnj : ~ In j (ms j)) by (rewrite Hms; lia).
      rewrite (ttm_step false _ V W (ms j) j ch_k HS) by (auto; try lia; apply k_fresh; auto).
      cbn [bind]. rewrite sb_bset by (rewrite lset_length, letters_len; lia). cbn [bind].
      eexists; split; [reflexivity|].
      assert (Ep : ttmc V W (ms (S j)) = ttmc V W (j :: ms j)).
      { apply (ttmc_perm RL). rewrite Hmj. apply Permutation_sym, Permutation_cons_append. }
      rewrite Ep. split; [|split; [auto|split; [|auto]]].
      * f_equal. rewrite <- (letters_nth chr o j 0%Z) by lia. apply lset_restore.
      * cbn [ttmc tabulate lens]. symmetry. apply ttmc_cons_lens. lia.
  - rewrite E. cbn [bind]. f_equal.
    assert (Em : ms o = contracted_modes i o).
    { unfold ms, contracted_modes. destruct i as [n|]; cbn [is_mode]; [reflexivity|].
      clear. induction (seq 0 o); simpl; auto. f_equal. auto. }
    rewrite HY by (rewrite Em; auto).
    rewrite HVt, Em. auto.
Qed.

(** ** unroll_tensor_contraction *)
Lemma fill18_ok o : o <= 18 ->
  exists a1 a2, for_ 0 o (fun k st => let '(arg, arg2) := st in
      c <- bget chars18 k ;; arg <- bset arg k c ;; arg2 <- bset arg2 k c ;; Ok (arg, arg2)) (newbuf (o + 1), newbuf (o + 1)) = Ok (a1, a2) /\
    bset a1 o 0%Z = Ok (sb (cls o)) /\ bset a2 o 0%Z = Ok (sb (cls o)).
Proof.
  intros Ho.
  destruct (for_inv (fun j st => let '(x1, x2) := st in length x1 = (o + 1)%nat /\ length x2 = (o + 1)%nat /\
       forall k, k < j -> nth_error x1 k = Some (Some (cl k)) /\ nth_error x2 k = Some (Some (cl k)))
     (fun k st => let '(arg, arg2) := st in
      c <- bget chars18 k ;; arg <- bset arg k c ;; arg2 <- bset arg2 k c ;; Ok (arg, arg2)) 0 o (newbuf (o + 1), newbuf (o + 1)))
   as ([a1 a2] & E & L1 & L2 & P).
  - lia.
  - rewrite newbuf_length. repeat split; auto; lia.
  - intros j [x1 x2] Hj (L1 & L2 & P). rewrite bget_chars by lia. cbn [bind]. rewrite !bset_ok by lia. cbn [bind].
    eexists; split; [reflexivity|]. split; [rewrite lset_length; auto|]. split; [rewrite lset_length; auto|].
    intros k Hk. rewrite !lset_nth_error. destruct (Nat.eqb_spec k j) as [->|Hn].
    + rewrite (proj2 (Nat.ltb_lt _ _)) by lia. rewrite (proj2 (Nat.ltb_lt _ _)) by lia. auto.
    + apply P. lia.
  - exists a1, a2. split; auto. rewrite !bset_ok by lia.
    assert (H : forall x, length x = (o + 1)%nat -> (forall k, k < o -> nth_error x k = Some (Some (cl k))) -> lset x o (Some 0%Z) = sb (cls o)).
    { intros x Lx Px. unfold sb. apply nth_ext with (d:=None) (d':=None); [rewrite lset_length, map_length, app_length, cls_len; auto|].
      intros k Hk. rewrite lset_length in Hk. apply nth_error_nth with (d:=None). rewrite lset_nth_error.
      rewrite (nth_map_lt _ _ _ 0%Z) by (rewrite app_length, cls_len; simpl; lia). rewrite nth_snoc, cls_len.
      destruct (Nat.eqb_spec k o) as [->|Hn].
      - rewrite (proj2 (Nat.ltb_lt _ _)) by lia. rewrite Nat.ltb_irrefl. auto.
      - rewrite Px by lia. rewrite (proj2 (Nat.ltb_lt k o)) by lia. rewrite cls_nth by lia. auto. }
    split; f_equal; apply H; auto; apply P.
Qed.
Lemma cls_nodup o : o <= 18 -> NoDup (cls o).
Proof.
  intros Ho. unfold cls. apply NoDup_map_inj; [|apply seq_NoDup]. intros x y Hx Hy. apply in_seq in Hx, Hy. apply cl_inj; lia.
Qed.
Lemma cls_in o c : o <= 18 -> In c (cls o) -> (105 <= c <= 122)%Z.
Proof.
  intros Ho H. unfold cls in H. apply in_map_iff in H as (i & <- & Hi). apply in_seq in Hi. rewrite cl_val by lia.
  rewrite (proj2 (Nat.ltb_lt _ _)) by lia. lia.
Qed.

Theorem unroll_ok (T : tensor N) n : wf T -> order T <= 18 -> n < order T ->
  unroll_tensor_contraction T n = Ok (unfold_gram T n).
Proof.
  intros HT Ho Hn. set (o := order T) in *. unfold unroll_tensor_contraction. fold o.
  destruct (fill18_ok o Ho) as (a1 & a2 & E & E1 & E2). rewrite E. cbn [bind]. rewrite E1. cbn [bind]. rewrite E2. cbn [bind].
  rewrite (lget_ok _ _ 0%nat) by (fold (order T); fold o; auto). cbn [bind].
  set (l := nth n (lens T) 0%nat). set (s := cls o).
  assert (Ls : length s = o) by apply cls_len.
  rewrite !sb_bset by (rewrite Ls; auto). cbn [bind].
  rewrite (assign_b_ok _ _ _ [ch_hat; ch_amp] [(T, lset s n ch_hat); (T, lset s n ch_amp)]).
  2:{ reflexivity. }
  2:{ apply tixs2; apply sb_take; rewrite lset_length; auto. }
  assert (Hs : NoDup s) by (apply cls_nodup; auto).
  assert (Fh : ~ In ch_hat s). { intros H. apply cls_in in H; auto. unfold ch_hat in H. lia. }
  assert (Fa : ~ In ch_amp s). { intros H. apply cls_in in H; auto. unfold ch_amp in H. lia. }
  set (d := dl s (lens T) [(ch_hat, l); (ch_amp, l)]).
  assert (Hds : map d s = lens T).
  { apply dl_base; auto. intros x Hx [Ex|[Ex|[]]]; cbn [fst] in Ex; subst; auto. }
  assert (Hdh : d ch_hat = l) by reflexivity. assert (Hda : d ch_amp = l) by reflexivity.
  set (fg := [(T, lset s n ch_hat, fun e => at_ T (map e (lset s n ch_hat))); (T, lset s n ch_amp, fun e => at_ T (map e (lset s n ch_amp)))]
              : list (tensor N * str * (env -> N))).
  set (cs := filter (fun c => negb (Z.eqb c (nth n s 0%Z))) s).
  assert (Hcs : forall c, In c cs <-> In c s /\ c <> nth n s 0%Z).
  { intros c. unfold cs. rewrite filter_In. destruct (Z.eqb_spec c (nth n s 0%Z)); cbn; intuition congruence. }
  destruct (contract_rep RL d (zeros [l; l]) [ch_hat; ch_amp] fg cs) as (B & EB & WB & LB & AB).
  - constructor; [intros [H|[]]; discriminate H|]. constructor; [intros []|constructor].
  - reflexivity.
  - assert (Hl : forall c, d c = l -> lens T = map d (lset s n c)).
    { intros c Hc. rewrite map_lset, Hds, Hc. unfold l. symmetry. apply lset_self. }
    constructor; [cbn [fst snd]; apply rep_self; auto|]. constructor; [cbn [fst snd]; apply rep_self; auto|constructor].
  - apply NoDup_filter; auto.
  - intros c. unfold fg. cbn [map fst snd flat_map]. rewrite app_nil_r, in_app_iff, !in_lset by (auto; lia). rewrite Hcs. cbn [In].
    split.
    + intros [Hcs1 Hcs2]. split; [left; right; auto|]. intros [Ex|[Ex|[]]]; subst c; tauto.
    + intros [Hin Hno]. destruct Hin as [[Ex|Hin]|[Ex|Hin]]; [exfalso; apply Hno; auto|tauto|exfalso; apply Hno; auto|tauto].
  - intros q [<-|[<-|[]]]; cbn [snd]; apply at_env.
  - cbn [map fst fg] in EB. rewrite EB. f_equal.
    apply tensor_ext; auto; [apply tabulate_wf|]. intros idx Hi. rewrite LB in Hi.
    destruct (inb_env d [ch_hat; ch_amp] idx) as (e & Ee & He); auto.
    { constructor; [intros [H|[]]; discriminate H|]. constructor; [intros []|constructor]. }
    rewrite <- Ee at 1. rewrite AB by auto. unfold unfold_gram. rewrite at_tabulate by auto. fold l.
    rewrite <- Ee. cbn [map nth]. set (a := e ch_hat). set (b := e ch_amp). unfold unfold_gram_at.
    set (d' := fun c => if Z.eqb c (nth n s 0%Z) then 1%nat else d c).
    assert (Hd' : lset (lens T) n 1%nat = map d' s).
    { apply nth_eq_ext with (d:=0%nat); [rewrite lset_length, map_length; auto|]. intros i Hi'. rewrite lset_length in Hi'.
      rewrite (nth_map_lt _ _ _ 0%Z) by (rewrite Ls; auto). unfold d'. destruct (Nat.eq_dec i n) as [->|Hin].
      - rewrite Z.eqb_refl. apply lset_same. auto.
      - rewrite lset_other by auto. rewrite <- Hds. rewrite (nth_map_lt _ _ _ 0%Z) by (rewrite Ls; auto).
        destruct (Z.eqb_spec (nth i s 0%Z) (nth n s 0%Z)) as [Ex|Ex]; auto. exfalso. apply Hin.
        rewrite (NoDup_nth s 0%Z) in Hs. apply Hs; auto; rewrite Ls; auto. }
    rewrite Hd'.
    rewrite <- (sumc_all RL d' s (fun x => at_ T (lset x n a) * at_ T (lset x n b)) e) by auto.
    assert (Env : envext (fun e' : env => at_ T (lset (map e' s) n a) * at_ T (lset (map e' s) n b))).
    { intros e1 e2 H12. rewrite (map_ext e1 e2) by auto. auto. }
    rewrite (sumc_perm RL d' s (nth n s 0%Z :: cs)); auto.
    2:{ apply NoDup_Permutation; auto; [constructor; [rewrite Hcs; tauto|apply NoDup_filter; auto]|]. intros c. cbn [In]. rewrite Hcs. destruct (Z.eq_dec c (nth n s 0%Z)) as [->|Hc]; [|intuition congruence].
        split; auto. intros _. apply nth_In. lia. }
    cbn [sumc]. assert (d' (nth n s 0%Z) = 1%nat) as -> by (unfold d'; rewrite Z.eqb_refl; auto).
    cbn [seq bigsum fold_right]. rewrite (Radd_comm RL), (Radd_0_l RL).
    apply sumc_ext2.
    + intros c Hc. apply Hcs in Hc. unfold d'. destruct (Z.eqb_spec c (nth n s 0%Z)); tauto.
    + intros v Hv. unfold fg. cbn [bigprod fold_right snd].
      assert (Hm : forall ch x, ~ In ch s -> e ch = x ->
         map (fun c => if memc c cs then v c else e c) (lset s n ch) =
         lset (map (fun c => if memc c cs then v c else upd e (nth n s 0%Z) 0 c) s) n x).
      { intros ch x Hch Hx. rewrite map_lset.
        destruct (memc_spec ch cs) as [Hin|Hin]; [apply Hcs in Hin; tauto|]. rewrite Hx.
        apply nth_eq_ext with (d:=0%nat); [rewrite !lset_length, !map_length; auto|]. intros i Hi'. rewrite lset_length, map_length in Hi'.
        destruct (Nat.eq_dec i n) as [->|Hin']; [rewrite !lset_same by (rewrite map_length; auto); auto|].
        rewrite !lset_other by auto. rewrite !(nth_map_lt _ _ _ 0%Z) by auto.
        destruct (memc_spec (nth i s 0%Z) cs) as [|Hne]; auto. exfalso. apply Hne, Hcs. split; [apply nth_In; auto|].
        intros Ex. apply Hin'. rewrite (NoDup_nth s 0%Z) in Hs. apply Hs; auto; lia. }
      rewrite (Hm ch_hat a), (Hm ch_amp b) by auto. ring.
    + intros e1 e2 H12. apply bigprod_ext. intros q [<-|[<-|[]]]; cbn [snd]; apply at_env; auto.
    + auto.
Qed.
End P.
