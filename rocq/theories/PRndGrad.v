(** The gradient in rounded arithmetic *)
From Coq Require Import List ZArith Reals Lra Lia Bool Arith Permutation.
From Verif Require Import Base Num NumR Tensor Spec Spec27 Spec28 MCommon MCP PBase PTensor PSum PMttkrp PMat PKhatri PGrad PResid PRnd PRndDT PRndDT2 PRndKR.
Import ListNotations.

(** the matrix statements, exactly as CTF evaluates them: no algebraic law is used *)
Section Raw.
Context {N : num}.
Local Open Scope num_scope.
Implicit Types A B C M : tensor N.
Local Ltac ev := cbv -[nadd nmul nopp nsub n0 n1 bigsum at_ el seq car gram_at].
Local Ltac fit := let t := fresh "t" in let p := fresh "p" in let H := fresh "H" in
  intros t H; simpl in H; repeat (destruct H as [H|H]; [subst t|]); try contradiction;
  intros p H; simpl in H; repeat (destruct H as [H|H]; [subst p|]); try contradiction; simpl; unfold d3; simpl; auto.
Lemma raw_gram C A r k : lens C = [r; r] -> lens A = [k; r] ->
  assign false C sij [prodt [(A, ski); (A, skj)]] = Ok (mk r r (fun i j => n1 * bigsum (seq 0 k) (fun x => el A x i * (el A x j * n1)))).
Proof.
  intros HC HA. apply (assign_mat (d3 r r k)); [discriminate|auto|fit|intros i j Hi Hj; ev; reflexivity].
Qed.
Lemma raw_hgram C A r k : lens C = [r; r] -> lens A = [k; r] ->
  assign false C sij [prodt [(C, sij); (A, ski); (A, skj)]]
  = Ok (mk r r (fun i j => n1 * bigsum (seq 0 k) (fun x => el C i j * (el A x i * (el A x j * n1))))).
Proof.
  intros HC HA. apply (assign_mat (d3 r r k)); [discriminate|auto|fit|intros i j Hi Hj; ev; reflexivity].
Qed.
Lemma raw_grad C M A B r k c :
  lens C = [r; c] -> lens M = [r; c] -> lens A = [r; k] -> lens B = [k; c] ->
  assign false C sij [mkTerm (- n1) [(M, sij)]; mkTerm n1 [(A, sik); (B, skj)]]
  = Ok (mk r c (fun i j => - n1 * (el M i j * n1) + n1 * bigsum (seq 0 k) (fun x => el A i x * (el B x j * n1)))).
Proof.
  intros HC HM HA HB. apply (assign_mat (d3 r c k)); [discriminate|auto|fit|intros i j Hi Hj; ev; reflexivity].
Qed.
End Raw.

Local Open Scope nat_scope.
Section Rnd.
Context (rnd : Rdefinitions.R -> Rdefinitions.R) (u : Rdefinitions.R) (RE : rel_err rnd u).
Let Hu : (0 <= u)%R := proj1 RE.
Notation N := (Fl rnd).
Let rel_rnd := rel_rnd rnd u RE.

(** a matrix with approximate contents *)
Definition mrel (k r c : nat) (A : tensor N) (g G : nat -> nat -> Rdefinitions.R) : Prop :=
  is_mat A r c /\ forall i j, i < r -> j < c -> rel u k (el A i j) (g i j) (G i j).
Lemma mrel_mono k l r c A g G : k <= l -> mrel k r c A g G -> mrel l r c A g G.
Proof. intros Hk [H1 H2]. split; auto. intros. eapply rel_mono; eauto. Qed.
Lemma mrel_ext k r c A g G g' G' : mrel k r c A g G -> (forall i j, i < r -> j < c -> g i j = g' i j /\ G i j = G' i j) -> mrel k r c A g' G'.
Proof. intros [H1 H2] H. split; auto. intros i j Hi Hj. destruct (H i j Hi Hj) as [<- <-]. auto. Qed.
Lemma mrel_mk k r c (f : nat -> nat -> N) g G : (forall i j, i < r -> j < c -> rel u k (f i j) (g i j) (G i j)) -> mrel k r c (mk r c f) g G.
Proof. intros H. split; [apply mk_mat|]. intros. rewrite el_mk by auto. auto. Qed.

Local Open Scope R_scope.
Lemma gram_entry (A : tensor N) k i j :
  rel u (k + 3) (@nmul N n1 (@bigsum N _ (seq 0 k) (fun x => @nmul N (el A x i) (@nmul N (el A x j) n1))))
    (@bigsum Rnum _ (seq 0 k) (fun x => @el Rnum (reals A) x i * @el Rnum (reals A) x j))
    (@bigsum Rnum _ (seq 0 k) (fun x => @el Rnum (absols A) x i * @el Rnum (absols A) x j)).
Proof.
  replace (k + 3)%nat with (S (2 + length (seq 0 k))) by (rewrite seq_length; lia).
  change (@nmul N n1 ?y) with (rnd (1 * y)). rewrite Rmult_1_l. apply rel_rnd.
  apply (rel_bigsum rnd u RE). intros x _.
  change (rel u 2 (rnd (el A x i * rnd (el A x j * 1))) (@el Rnum (reals A) x i * @el Rnum (reals A) x j) (@el Rnum (absols A) x i * @el Rnum (absols A) x j)).
  rewrite Rmult_1_r. apply rel_rnd. apply (rel_mult u 0 1); [apply rel_el|]. apply rel_rnd. apply rel_el.
Qed.
Lemma hgram_entry (c : R) (g G : R) K (A : tensor N) k i j : rel u K c g G ->
  rel u (K + (k + 4)) (@nmul N n1 (@bigsum N _ (seq 0 k) (fun x => @nmul N c (@nmul N (el A x i) (@nmul N (el A x j) n1)))))
    (g * @bigsum Rnum _ (seq 0 k) (fun x => @el Rnum (reals A) x i * @el Rnum (reals A) x j))
    (G * @bigsum Rnum _ (seq 0 k) (fun x => @el Rnum (absols A) x i * @el Rnum (absols A) x j)).
Proof.
  intros Hc. replace (K + (k + 4))%nat with (S (K + 3 + length (seq 0 k))) by (rewrite seq_length; lia).
  change (@nmul N n1 ?y) with (rnd (1 * y)). rewrite Rmult_1_l. apply rel_rnd.
  assert (EM : forall (a : R) (f : nat -> R), a * @bigsum Rnum _ (seq 0 k) f = @bigsum Rnum _ (seq 0 k) (fun x => a * f x)).
  { intros a f. symmetry. apply (bigsum_mul_l Rnum_ring). }
  rewrite !EM.
  apply (rel_bigsum rnd u RE). intros x _.
  change (rel u (K + 3) (rnd (c * rnd (el A x i * rnd (el A x j * 1)))) (g * (@el Rnum (reals A) x i * @el Rnum (reals A) x j)) (G * (@el Rnum (absols A) x i * @el Rnum (absols A) x j))).
  rewrite Rmult_1_r. replace (K + 3)%nat with (S (K + 2)) by lia. apply rel_rnd. apply rel_mult; auto.
  apply rel_rnd. apply (rel_mult u 0 1); [apply rel_el|]. apply rel_rnd. apply rel_el.
Qed.

Definition gramr (h : tensor N -> tensor Rnum) (W : list (tensor N)) (l : list nat) (i j : nat) : R :=
  @bigprod Rnum _ l (fun m => @gram_at Rnum (h (fac W m)) i j).
Definition kgram (W : list (tensor N)) (l : list nat) : nat := ksum (map (fun m => nrow (fac W m) + 4)%nat l).

Lemma gram_at_h (h : tensor N -> tensor Rnum) (A : tensor N) k i j : nrow (h A) = k ->
  @gram_at Rnum (h A) i j = @bigsum Rnum _ (seq 0 k) (fun x => @el Rnum (h A) x i * @el Rnum (h A) x j).
Proof. intros <-. reflexivity. Qed.

Local Open Scope nat_scope.
Lemma gram_index_r (Sm : tensor N) W o rk idx n :
  2 <= o -> length W = o -> cols_ok W rk -> lens Sm = [rk; rk] ->
  Permutation idx (seq 0 o) -> nth (o - 1) idx 0%nat = n ->
  exists S', gram_index Sm W o (map Some idx) = Ok S' /\
    mrel (kgram W (others n o)) rk rk S' (@hgram_at Rnum (map reals W) n) (@hgram_at Rnum (map absols W) n).
Proof.
  intros Ho HW Hc HS Hp Hn. unfold gram_index.
  assert (HL : length idx = o) by (rewrite (Permutation_length Hp); apply seq_length).
  assert (Hlt : forall k, k < o -> nth k idx 0%nat < o).
  { intros k Hk. assert (H : In (nth k idx 0%nat) idx) by (apply nth_In; lia).
    apply (Permutation_in _ Hp), in_seq in H. lia. }
  assert (Hget : forall k, k < o -> bget (map Some idx) k = Ok (nth k idx 0%nat)) by (intros; apply bget_map; lia).
  assert (HW' : forall k, k < o -> lget W k = Ok (fac W k)) by (intros; apply lget_ok; lia).
  rewrite Hget by lia. cbn [bind]. rewrite HW' by (apply Hlt; lia). cbn [bind].
  destruct (Hc (nth 0 idx 0%nat)) as (r0 & Hr0 & _). { rewrite HW; apply Hlt; lia. }
  rewrite (raw_gram Sm _ rk r0) by auto. cbn [bind].
  destruct (for_inv (fun j (Sj : tensor N) =>
     mrel (kgram W (firstn j idx)) rk rk Sj (gramr reals W (firstn j idx)) (gramr absols W (firstn j idx)))
    (fun ii Sm => i <- bget (map Some idx) ii ;; Wi <- lget W i ;;
        assign false Sm sij [prodt [(Sm, sij); (Wi, ski); (Wi, skj)]]) 1%nat (o - 1)%nat
     (mk rk rk (fun i j => @nmul N n1 (bigsum (seq 0 r0) (fun x => @nmul N (el (fac W (nth 0 idx 0)) x i) (@nmul N (el (fac W (nth 0 idx 0)) x j) n1)))))) as (S' & E & P).
  - lia.
  - apply (mrel_mono (r0 + 3)).
    { destruct idx as [|a idx']; [simpl in HL; lia|]. cbn [firstn nth] in *. unfold kgram. cbn. unfold nrow. rewrite Hr0. cbn. lia. }
    apply mrel_mk. intros i j Hi Hj.
    replace (firstn 1 idx) with [nth 0 idx 0] by (destruct idx; [simpl in HL; lia|reflexivity]).
    unfold gramr. cbn [bigprod fold_right]. cbn [nmul n1 Rnum]. rewrite !RIneq.Rmult_1_r.
    rewrite !(gram_at_h _ _ r0) by (unfold nrow, reals, absols; cbn [lens]; rewrite Hr0; reflexivity). apply gram_entry.
  - intros j Sj Hj [[HSl HSw] HSj]. rewrite Hget by lia. cbn [bind]. rewrite HW' by (apply Hlt; lia). cbn [bind].
    destruct (Hc (nth j idx 0%nat)) as (r & Hr & _). { rewrite HW; apply Hlt; lia. }
    rewrite (raw_hgram _ _ rk r) by auto. eexists; split; [reflexivity|].
    rewrite Nat.add_1_r || idtac.
    rewrite (firstn_snoc_nth idx j 0%nat) by lia.
    apply mrel_mk. intros a b Ha Hb.
    assert (Ek : kgram W (firstn j idx ++ [nth j idx 0]) = kgram W (firstn j idx) + (r + 4)).
    { unfold kgram. rewrite map_app. cbn [map]. unfold nrow at 2. rewrite Hr. cbn [nth].
      induction (map (fun m => nrow (fac W m) + 4) (firstn j idx)) as [|q l IH]; cbn; [lia|]. fold (ksum l). fold (ksum (l ++ [r + 4])). lia. }
    rewrite Ek.
    assert (Eg : forall h, nrow (h (fac W (nth j idx 0%nat))) = r -> gramr h W (firstn j idx ++ [nth j idx 0%nat]) a b = (gramr h W (firstn j idx) a b * @bigsum Rnum _ (seq 0 r) (fun x => @el Rnum (h (fac W (nth j idx 0%nat))) x a * @el Rnum (h (fac W (nth j idx 0%nat))) x b))%R).
    { intros h Hh. unfold gramr. rewrite (bigprod_app Rnum_ring). cbn [bigprod fold_right]. cbn [nmul n1 Rnum]. rewrite !RIneq.Rmult_1_r.
      rewrite (gram_at_h h _ r) by auto. reflexivity. }
    rewrite !Eg by (unfold nrow, reals, absols; cbn [lens]; rewrite Hr; reflexivity).
    apply hgram_entry. auto.
  - rewrite E. exists S'. split; [reflexivity|].
    assert (Hsplit : idx = firstn (o - 1) idx ++ [n]).
    { rewrite <- (firstn_skipn (o - 1) idx) at 1. f_equal.
      rewrite (skipn_cons_nth idx (o - 1) 0%nat) by lia. rewrite Hn. f_equal. apply skipn_all2. lia. }
    assert (Hno : n < o) by (rewrite <- Hn; apply Hlt; lia).
    assert (HP : Permutation (firstn (o - 1) idx) (others n o)).
    { apply Permutation_cons_inv with (a:=n). rewrite others_perm by auto. rewrite <- Hp. rewrite Hsplit at 2. apply Permutation_cons_append. }
    unfold kgram. rewrite <- (ksum_perm _ _ (Permutation_map _ HP)).
    eapply mrel_ext; [exact P|]. intros i j _ _. unfold gramr, hgram_at. rewrite !map_length, HW.
    split; (rewrite (bigprod_perm Rnum_ring _ _ _ HP); apply (@bigprod_ext Rnum); intros m _; rewrite fac_map by reflexivity; reflexivity).
Qed.

Lemma gradsubprob_r (V : tensor N) W rk n (G M S : tensor N) k : factors_ok V W rk -> n < order V ->
  lens G = [nth n (lens V) 0%nat; rk] -> mttkrp_within u k V W n rk M -> k <= mode_roundings (lens V) n + 2 ->
  mrel (kgram W (others n (order V))) rk rk S (@hgram_at Rnum (map reals W) n) (@hgram_at Rnum (map absols W) n) ->
  exists G', gradsubprob M S (fac W n) G = Ok G' /\ grad_within u (grad_roundings (lens V) n rk) V W n rk G'.
Proof.
  intros HF Hn HG [[HMl HMw] HM] Hk [[HSl HSw] HS]. pose proof HF as (H1 & H2 & H3). unfold gradsubprob.
  destruct (H3 n Hn) as [HWn HwW].
  rewrite (raw_grad _ _ _ _ (nth n (lens V) 0) rk rk) by auto. eexists; split; [reflexivity|]. 
  split; [apply mk_mat|]. intros a r Ha Hr. rewrite el_mk by auto.
  set (s := nth n (lens V) 0) in *.
  assert (Ek : kgram W (others n (order V)) + rk + 5 = grad_roundings (lens V) n rk).
  { unfold kgram, grad_roundings. do 2 f_equal. unfold ksum. f_equal. apply map_ext_in. intros m Hm.
    apply others_in in Hm as [Hm _]. destruct (H3 m) as [Em _]; [exact Hm|]. unfold nrow. rewrite Em. reflexivity. }
  assert (Ekm : mode_roundings (lens V) n + 2 + 2 <= kgram W (others n (order V)) + rk + 4).
  { assert (mode_roundings (lens V) n <= kgram W (others n (order V))); [|lia].
    unfold mode_roundings, kgram, ksum. change (length (lens V)) with (order V).
    assert (G0 : forall l, (forall m, In m l -> m < order V) -> fold_right Nat.add 0 (map (fun m => nth m (lens V) 0 + 3) l) <= fold_right Nat.add 0 (map (fun m => nrow (fac W m) + 4) l)).
    { induction l as [|m l IH]; intros Hl; cbn; [lia|]. destruct (H3 m) as [Em _]; [apply Hl; left; auto|].
      specialize (IH (fun x Hx => Hl x (or_intror Hx))). unfold nrow at 1. rewrite Em. cbn [nth]. lia. }
    apply G0. intros m Hm. apply others_in in Hm as [Hm _]. exact Hm. }
  rewrite <- Ek. set (K := kgram W (others n (order V))) in *.
  assert (HM' : rel u k (el M a r) (@el Rnum (mttkrp (reals V) (map reals W) n rk) a r) (@el Rnum (mttkrp (absols V) (map absols W) n rk) a r)).
  { split; [apply HM; auto|]. 
    assert (Eel : forall (h : tensor N -> tensor Rnum), lens (h V) = lens V -> @el Rnum (mttkrp (h V) (map h W) n rk) a r = @mttkrp_at Rnum (h V) (map h W) n a r).
    { intros h Eh. unfold el, mttkrp. rewrite Eh. rewrite (@at_tabulate Rnum); [reflexivity|]. apply inb2; auto. }
    rewrite !Eel by reflexivity. unfold mttkrp_at. change (lens (reals V)) with (lens V). change (lens (absols V)) with (lens V).
    assert (EB : forall X (l : list X) (f g : X -> Rdefinitions.R), (forall x, In x l -> Rabs (f x) <= g x)%R -> (Rabs (@bigsum Rnum _ l f) <= @bigsum Rnum _ l g)%R).
    { clear. intros X l f g. induction l as [|x l IH]; intros H; cbn; [rewrite Rabs_R0; lra|].
      eapply Rle_trans; [apply Rabs_triang|]. apply Rplus_le_compat; [apply H; left; auto|apply IH; intros; apply H; right; auto]. }
    apply EB. intros x _.
    assert (EP : forall X (l : list X) (f g : X -> Rdefinitions.R), (forall x, In x l -> Rabs (f x) <= g x)%R -> (Rabs (@bigprod Rnum _ l f) <= @bigprod Rnum _ l g)%R).
    { clear. intros X l f g. induction l as [|x l IH]; intros H; cbn; [rewrite Rabs_R1; lra|].
      rewrite Rabs_mult. apply Rmult_le_compat; auto using Rabs_pos. { apply H; left; auto. } apply IH; intros; apply H; right; auto. }
    cbn [nmul Rnum]. rewrite Rabs_mult. apply Rmult_le_compat; auto using Rabs_pos.
    - rewrite absols_at, reals_at. lra.
    - change (order (reals V)) with (order V). change (order (absols V)) with (order V). apply EP. intros m _. rewrite !fac_map by reflexivity. unfold el. rewrite absols_at, reals_at. lra. }
  assert (ES : forall (h : tensor N -> tensor Rnum), h tnil = tnil -> (forall T, lens (h T) = lens T) ->
     @el Rnum (mmul (fac (map h W) n) (hgram (map h W) n rk)) a r = @bigsum Rnum _ (seq 0 rk) (fun x => @el Rnum (h (fac W n)) a x * @hgram_at Rnum (map h W) n x r)%R).
  { intros h E0 Eh. rewrite fac_map by auto. unfold mmul, el at 1. unfold nrow, ncol. rewrite Eh, HWn. cbn [nth hgram lens tabulate].
    rewrite (@at_tabulate Rnum) by (apply inb2; auto). cbn [nth]. apply (@bigsum_ext Rnum). intros x Hx. apply in_seq in Hx.
    unfold hgram. unfold el at 2. rewrite (@at_tabulate Rnum) by (apply inb2; lia). reflexivity. }
  assert (HWS : rel u (K + 2 + rk) (@bigsum N _ (seq 0 rk) (fun x => @nmul N (el (fac W n) a x) (@nmul N (el S x r) n1)))
     (@el Rnum (mmul (fac (map reals W) n) (hgram (map reals W) n rk)) a r) (@el Rnum (mmul (fac (map absols W) n) (hgram (map absols W) n rk)) a r)).
  { rewrite !ES by reflexivity. replace (K + 2 + rk) with (K + 2 + length (seq 0 rk)) by (rewrite seq_length; auto).
    apply (rel_bigsum rnd u RE). intros x Hx. apply in_seq in Hx.
    change (@nmul N ?p (@nmul N ?q n1)) with (rnd (p * rnd (q * 1))%R). rewrite RIneq.Rmult_1_r.
    replace (K + 2) with (Datatypes.S (0 + Datatypes.S K)) by lia. apply rel_rnd. apply rel_mult; [apply rel_el|]. apply rel_rnd. apply HS; lia. }
  assert (EG : @el Rnum (grad_spec (reals V) (map reals W) rk n) a r
     = (- @el Rnum (mttkrp (reals V) (map reals W) n rk) a r + @el Rnum (mmul (fac (map reals W) n) (hgram (map reals W) n rk)) a r)%R).
  { unfold grad_spec, msub. unfold el at 1. rewrite (@at_tabulate Rnum). 
    - fold (@el Rnum (mmul (fac (map reals W) n) (hgram (map reals W) n rk)) a r). fold (@el Rnum (mttkrp (reals V) (map reals W) n rk) a r).
      cbn [nsub Rnum]. lra.
    - rewrite fac_map by reflexivity. unfold mmul, nrow, ncol. cbn [lens tabulate reals hgram nth]. rewrite HWn. apply inb2; auto. }
  assert (EA : @el Rnum (grad_mass V W rk n) a r
     = (@el Rnum (mttkrp (absols V) (map absols W) n rk) a r + @el Rnum (mmul (fac (map absols W) n) (hgram (map absols W) n rk)) a r)%R).
  { unfold grad_mass. unfold el at 1. rewrite (@at_tabulate Rnum) by (apply inb2; auto). apply Rplus_comm. }
  rewrite EG, EA.
  set (m0 := @el Rnum (mttkrp (reals V) (map reals W) n rk) a r) in *. set (m1 := @el Rnum (mttkrp (absols V) (map absols W) n rk) a r) in *.
  set (w0 := @el Rnum (mmul (fac (map reals W) n) (hgram (map reals W) n rk)) a r) in *. set (w1 := @el Rnum (mmul (fac (map absols W) n) (hgram (map absols W) n rk)) a r) in *.
  set (ws := @bigsum N _ (seq 0 rk) (fun x => @nmul N (el (fac W n) a x) (@nmul N (el S x r) n1))) in *.
  set (mm := @el N M a r) in *.
  change (Rabs (rnd (rnd (- (1) * rnd (mm * 1)) + rnd (1 * ws)) - (- m0 + w0)) <= gam u (K + rk + 5) * (m1 + w1))%R.
  clearbody m0 m1 w0 w1 ws mm. change (car Rnum) with Rdefinitions.R in *. change (car N) with Rdefinitions.R in *.
  rewrite RIneq.Rmult_1_r, Rmult_1_l.
  assert (Q : rel u (Datatypes.S (K + rk + 4)) (rnd (rnd (- (1) * rnd mm) + rnd ws)) (- m0 + w0) (m1 + w1)).
  { apply rel_rnd. apply rel_plus.
    - apply rel_mono with (Datatypes.S (Datatypes.S k)); [auto|lia|]. apply rel_rnd. apply rel_rnd in HM'. 
      destruct HM' as [Q1 Q2]. split; [|rewrite Rabs_Ropp; auto]. replace (- (1) * rnd mm - - m0)%R with (- (rnd mm - m0))%R by lra. rewrite Rabs_Ropp. auto.
    - apply rel_mono with (Datatypes.S (K + 2 + rk)); [auto|lia|]. apply rel_rnd. auto. }
  replace (K + rk + 5) with (Datatypes.S (K + rk + 4)) by lia. apply Q.
Qed.

Theorem gradient_CP_r (V : tensor N) (W G : list (tensor N)) rk s :
  2 <= order V <= 10 -> lens V = repeat s (order V) -> factors_ok V W rk ->
  length G = order V -> (forall m, m < order V -> lens (fac G m) = [s; rk]) ->
  exists G', gradient_CP V W G = Ok G' /\ length G' = order V /\ forall m, m < order V -> grad_within u (grad_roundings (lens V) m rk) V W m rk (fac G' m).
Proof.
  intros Ho Hcube HW HG HGm. unfold gradient_CP. set (o := order V) in *.
  rewrite bset_ok by blen. cbn [bind].
  rewrite (fill_letters_lbuf o) by (apply bset_ok; blen). cbn [bind].
  pose proof HW as (HwV & HLW & HWm). fold o in HLW, HWm.
  assert (HW' : forall k, k < o -> lget W k = Ok (fac W k)) by (intros; apply lget_ok; lia).
  rewrite HW' by lia. cbn [bind].
  destruct (HWm 0%nat) as [HW0 _]; [lia|].
  assert (ncol (fac W 0) = rk) as -> by (unfold ncol; rewrite HW0; auto).
  assert (HVs : forall m, m < o -> nth m (lens V) 0%nat = s) by (intros; rewrite Hcube; apply nth_rep; auto).
  lazymatch goal with |- context [for_ 0 o ?body ?st0] =>
    destruct (for_inv (fun i (st : list (tensor N) * buf Z * tensor N) =>
       let '(G', sv, Sm) := st in
       length G' = o /\ sv = lbuf o /\ lens Sm = [rk; rk] /\
       forall m, m < o -> if m <? i then grad_within u (grad_roundings (lens V) m rk) V W m rk (fac G' m) else fac G' m = fac G m)
      body 0%nat o st0) as ([[G' sv] Sm] & E & (L & _ & _ & P))
  end.
  - lia.
  - split; [auto|]. split; [auto|]. split; [auto|]. intros m Hm. reflexivity.
  - intros i [[G' sv] Sm] Hi (L & -> & HS & P).
    rewrite swap_lbuf by lia. cbn [bind]. rewrite HW' by lia. cbn [bind].
    destruct (HWm i) as [HWi HwWi]; [lia|]. rewrite HVs in HWi by lia.
    assert (nrow (fac W i) = s) as -> by (unfold nrow; rewrite HWi; auto).
    assert (ncol (fac W i) = rk) as -> by (unfold ncol; rewrite HWi; auto).
    rewrite (make_index_ok o i _ _ (fun _ => s)); [|lia|lia|].
    2:{ intros m Hm. rewrite (lget_ok _ _ 0%nat) by (rewrite Hcube, repeat_length; auto). rewrite HVs; auto. }
    cbn [bind].
    assert (HLs : length (swapped o i) = o) by (unfold swapped; rewrite swapl_length, seq_length; auto).
    replace (map (fun _ : nat => s) (firstn (o - 1) (swapped o i))) with (repeat s (o - 1)).
    2:{ apply nth_ext with (d:=0%nat) (d':=0%nat); [rewrite repeat_length, map_length, firstn_length; lia|].
        rewrite repeat_length. intros k Hk. rewrite nth_rep by auto.
        rewrite (nth_map_lt _ _ _ 0%nat) by (rewrite firstn_length; lia). auto. }
    destruct (PRndKR.KhatriRao_contract_ok rnd u RE V W rk s (swapped o i) Ho Hcube HW (swapped_perm o i ltac:(lia)) (zeros [s; rk]) i) as (M & EM & HM); auto.
    { apply swapped_last; lia. }
    unfold o in EM |- *. rewrite EM. fold o. cbn [bind].
    destruct (gram_index_r Sm W o rk (swapped o i) i) as (S' & ES & HS'); auto; try lia.
    { eapply factors_cols; eauto. }
    { apply swapped_perm; lia. }
    { apply swapped_last; lia. }
    rewrite ES. cbn [bind]. rewrite (lget_ok G' i tnil) by lia. cbn [bind].
    destruct (gradsubprob_r V W rk i (nth i G' tnil) M S' (mode_roundings (lens V) i + 2) HW) as (g & Eg & Hg); [fold o; lia| |auto|auto|auto|].
    { change (nth i G' tnil) with (fac G' i). specialize (P i ltac:(lia)). destruct (Nat.ltb_spec i i) as [|_]; [lia|]. rewrite P, HVs by lia. apply HGm. lia. }
    rewrite Eg. cbn [bind]. rewrite lput_ok by lia. cbn [bind]. rewrite swap_back by lia. cbn [bind].
    eexists; split; [reflexivity|].
    split; [rewrite lset_length; auto|]. split; [auto|]. split; [apply HS'|].
    intros m Hm. assert (Ef : fac (lset G' i g) m = if Nat.eqb m i then g else fac G' m) by (unfold fac; rewrite lset_nth by lia; reflexivity).
    rewrite Ef. specialize (P m Hm). destruct (Nat.eqb_spec m i) as [->|Hne].
    + destruct (Nat.ltb_spec i (S i)) as [_|Hx]; [exact Hg|lia].
    + destruct (Nat.ltb_spec m i), (Nat.ltb_spec m (S i)); try lia; auto.
  - rewrite E. cbn [bind]. exists G'. split; [auto|]. split; [auto|]. intros m Hm. specialize (P m Hm). destruct (Nat.ltb_spec m o); [auto|lia].
Qed.
End Rnd.
