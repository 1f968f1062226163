(** One update of alternating least squares in rounded arithmetic *)
From Coq Require Import List ZArith Reals Lra Lia Bool Arith Permutation.
From Verif Require Import Base Num NumR Tensor Spec Spec27 Spec28 Spec29 MCommon MCP PBase PTensor PSum PMttkrp PMat PMatAlg PKhatri PSolve PALS PTree PDT PGrad PResid PRnd PRndDT PRndDT2 PRndKR PRndGrad PRndGrad2.
Import ListNotations.
Local Open Scope nat_scope.

Section Raw.
Context {N : num}.
Local Open Scope num_scope.
Implicit Types A B C M : tensor N.
Local Ltac ev := cbv -[nadd nmul nopp nsub n0 n1 bigsum at_ el seq car gram_at].
Local Ltac fit := let t := fresh "t" in let p := fresh "p" in let H := fresh "H" in
  intros t H; simpl in H; repeat (destruct H as [H|H]; [subst t|]); try contradiction;
  intros p H; simpl in H; repeat (destruct H as [H|H]; [subst p|]); try contradiction; simpl; unfold d3; simpl; auto.
Lemma raw_add C A r c : lens C = [r; c] -> lens A = [r; c] ->
  assign true C sij [prodt [(A, sij)]] = Ok (mk r c (fun i j => el C i j + n1 * (el A i j * n1))).
Proof.
  intros HC HA. apply (assign_mat (d3 r c 0)); [discriminate|auto|fit|intros i j Hi Hj; ev; reflexivity].
Qed.
Lemma raw_usv C VT s U r c k : lens C = [r; c] -> lens VT = [k; r] -> lens s = [k] -> lens U = [c; k] ->
  assign false C sij [prodt [(VT, ski); (s, [ch_k]); (U, sjk)]]
  = Ok (mk r c (fun i j => n1 * bigsum (seq 0 k) (fun x => el VT x i * (at_ s [x] * (el U j x * n1))))).
Proof.
  intros HC H1 H2 H3. apply (assign_mat (d3 r c k)); [discriminate|auto|fit|intros i j Hi Hj; ev; reflexivity].
Qed.
Lemma raw_mm C A B r k c : lens C = [r; c] -> lens A = [r; k] -> lens B = [k; c] ->
  assign false C sij [prodt [(A, sik); (B, skj)]]
  = Ok (mk r c (fun i j => n1 * bigsum (seq 0 k) (fun x => el A i x * (el B x j * n1)))).
Proof.
  intros HC HA HB. apply (assign_mat (d3 r c k)); [discriminate|auto|fit|intros i j Hi Hj; ev; reflexivity].
Qed.
Lemma raw_regul rk (lambda : N) : @mk_regul N rk lambda = Ok (mk rk rk (fun i j => if Nat.eqb i j then lambda * n1 else n0)).
Proof.
  unfold mk_regul, assign. cbn [length Nat.eqb order lens zeros tabulate forallb term_ok].
  replace (term_ok (zeros [rk; rk]) [ch_i; ch_i] (mkTerm lambda [])) with true.
  2:{ unfold term_ok. cbn. rewrite !Nat.eqb_refl. reflexivity. }
  cbn [andb order lens length zeros tabulate Nat.eqb]. f_equal. unfold mk.
  apply tabulate_ext. intros idx Hi. apply inb2_inv in Hi as (i & j & -> & Hi & Hj).
  unfold addressed. cbn [combine consistent forallb assoc fst snd Z.eqb nth].
  change (ch_i =? ch_i)%Z with true. cbn iota. rewrite Nat.eqb_refl. cbn [andb]. rewrite andb_true_r.
  destruct (Nat.eqb_spec i j).
  - reflexivity.
  - unfold zeros. rewrite at_tabulate by (apply inb2; auto). reflexivity.
Qed.
End Raw.

(** entries of the textbook solve over the reals *)
Lemma pinv_el (U s VT M S : tensor Rnum) r k i j : is_mat M r k -> is_mat S k k -> is_mat U k k -> lens s = [k] -> wf s -> is_mat VT k k -> i < r -> j < k ->
  @el Rnum (@pinv_solve Rnum (fun _ _ => (U, s, VT)) k M S) i j
  = @bigsum Rnum _ (seq 0 k) (fun x => @el Rnum M i x * @bigsum Rnum _ (seq 0 k) (fun y => @el Rnum VT y x * (1 / @at_ Rnum s [y]) * @el Rnum U j y))%R.
Proof.
  intros HM HS HU Hs Hws HV Hi Hj. unfold pinv_solve.
  pose proof (mtrans_mat VT k k HV) as HVt. pose proof (mtrans_mat U k k HU) as HUt.
  assert (HD : is_mat (mmul (mtrans VT) (mdiag k (fun i => n1 / at_ s [i])%num)) k k) by (apply (mmul_mat _ _ k k k); [auto|apply mdiag_mat]).
  rewrite (el_mmul _ _ r k k) by (auto; apply (mmul_mat _ _ k k k); auto).
  apply (@bigsum_ext Rnum). intros x Hx. apply in_seq in Hx. cbn [nmul Rnum]. f_equal.
  rewrite (el_mmul _ _ k k k) by (auto; lia).
  apply (@bigsum_ext Rnum). intros y Hy. apply in_seq in Hy. cbn [nmul Rnum].
  rewrite (mmul_diag_r Rnum_ring _ k k) by auto. rewrite el_mk by lia.
  rewrite (el_mtrans VT k k) by (auto; lia). rewrite (el_mtrans U k k) by (auto; lia). reflexivity.
Qed.

Section Rnd.
Context (rnd : Rdefinitions.R -> Rdefinitions.R) (u : Rdefinitions.R) (RE : rel_err rnd u).
Let Hu : (0 <= u)%R := proj1 RE.
Notation N := (Fl rnd).
Let rel_rnd := rel_rnd rnd u RE.

Lemma rnd_0 : rnd 0%R = 0%R.
Proof. pose proof (proj2 RE 0%R) as Q. rewrite Rabs_R0, Rmult_0_r, Rminus_0_r in Q. destruct (Req_dec (rnd 0) 0); auto. pose proof (Rabs_pos_lt (rnd 0)). exfalso; lra. Qed.

(** the solve *)
Lemma Rabs_div1 x : Rabs (1 / x) = (1 / Rabs x)%R.
Proof. unfold Rdiv. rewrite Rabs_mult, Rabs_R1, Rabs_inv. reflexivity. Qed.


Lemma rel_inv x : rel u 1 (rnd (1 / x)) (1 / x) (1 / Rabs x).
Proof. apply (rel_rnd 0). rewrite <- Rabs_div1. apply rel_refl. Qed.

Lemma solve_r (LA : lapack N) (M W S : tensor N) r k : is_mat M r k -> lens W = [r; k] -> is_mat S k k -> svd_shaped (svd LA) ->
  exists A, SVD_solve LA M W S = Ok A /\
    (let '(U, sv, VT) := svd LA S k in
     mat_within u (2 * k + 8) r k A
       (@pinv_solve Rnum (fun _ _ => (reals U, reals sv, reals VT)) k (reals M) (reals S))
       (@pinv_solve Rnum (fun _ _ => (absols U, absols sv, absols VT)) k (absols M) (absols S))).
Proof.
  intros HM HW HS Hsh. specialize (Hsh S k HS). unfold SVD_solve. rewrite (is_mat_ncol _ _ _ HS).
  destruct (svd LA S k) as [[U s] VT]. destruct Hsh as (HU & Hs & Hws & HV).
  rewrite (raw_usv S VT (inv_all s) U k k k); [|apply HS|apply HV|exact Hs|apply HU]. cbn [bind].
  rewrite (raw_mm W M _ r k k); [|auto|apply HM|reflexivity]. eexists; split; [reflexivity|].
  split; [apply mk_mat|]. intros i j Hi Hj. rewrite el_mk by auto.
  assert (Hr : forall (A : tensor N) a b, is_mat A a b -> @is_mat Rnum (reals A) a b) by (intros A a b [E1 E2]; split; auto).
  assert (Ha : forall (A : tensor N) a b, is_mat A a b -> @is_mat Rnum (absols A) a b).
  { intros A a b [E1 E2]; split; auto. unfold wf, absols. cbn [lens data]. rewrite map_length. exact E2. }
  rewrite (pinv_el _ _ _ _ _ r k); auto.
  rewrite (pinv_el _ _ _ _ _ r k); auto. 2:{ unfold wf, absols. cbn [lens data]. rewrite map_length. exact Hws. }
  change (@nmul N n1 ?y) with (rnd (1 * y)%R). rewrite Rmult_1_l.
  lazymatch goal with |- (Rabs (?x - ?y) <= _ * ?Y)%R => enough (Q : rel u (Datatypes.S (2 * k + 7)) x y Y) by (replace (2 * k + 8) with (Datatypes.S (2 * k + 7)) by lia; apply Q) end.
  apply rel_rnd.
  replace (2 * k + 7) with (k + 7 + length (seq 0 k)) by (rewrite seq_length; lia).
  apply (rel_bigsum rnd u RE). intros x Hx. apply in_seq in Hx. rewrite el_mk by lia.
  change (@nmul N ?p (@nmul N ?q n1)) with (rnd (p * rnd (q * 1))%R). rewrite RIneq.Rmult_1_r.
  replace (k + 7) with (Datatypes.S (0 + Datatypes.S (k + 5))) by lia.
  apply rel_rnd, rel_mult; [apply rel_el|]. apply rel_rnd.
  change (@nmul N n1 ?y) with (rnd (1 * y)%R). rewrite Rmult_1_l.
  replace (k + 5) with (Datatypes.S (4 + length (seq 0 k))) by (rewrite seq_length; lia).
  apply rel_rnd. apply (rel_bigsum rnd u RE). intros y Hy. apply in_seq in Hy.
  change (@nmul N ?p (@nmul N ?q (@nmul N ?t n1))) with (rnd (p * rnd (q * rnd (t * 1)))%R). rewrite RIneq.Rmult_1_r.
  rewrite (at1_inv s k) by (auto; lia). change (@ndiv N n1 ?z) with (rnd (1 / z)%R).
  assert (E : forall a b c : Rdefinitions.R, (a * b * c = a * (b * c))%R) by (intros; ring). rewrite !E.
  apply (rel_rnd 3). apply (rel_mult u 0 3); [apply rel_el|]. apply (rel_rnd 2). apply (rel_mult u 1 1).
  - rewrite absols_at, reals_at. apply rel_inv.
  - apply rel_rnd. apply rel_el.
Qed.

(** right-hand side, system and gradient *)
Lemma mrel_add k l L r c A B g G h H : k <= L -> l + 2 <= L -> mrel rnd u k r c A g G -> mrel rnd u l r c B h H ->
  exists C, assign true A sij [prodt [(B, sij)]] = Ok C /\ mrel rnd u (L + 1) r c C (fun i j => g i j + h i j)%R (fun i j => G i j + H i j)%R.
Proof.
  intros Hk Hl [[HA1 HA2] HA] [[HB1 HB2] HB]. rewrite (raw_add A B r c) by auto. eexists; split; [reflexivity|].
  apply mrel_mk. intros i j Hi Hj.
  change (rel u (L + 1) (rnd (el A i j + rnd (1 * rnd (el B i j * 1)))%R) (g i j + h i j) (G i j + H i j)).
  rewrite RIneq.Rmult_1_r, Rmult_1_l. rewrite Nat.add_1_r. apply rel_rnd. apply rel_plus.
  - apply rel_mono with k; auto.
  - apply rel_mono with (Datatypes.S (Datatypes.S l)); [auto|lia|]. apply rel_rnd, rel_rnd. auto.
Qed.
Lemma gradsub_rel kM K L s rk (W G M S : tensor N) m0 m1 h0 h1 : kM + 2 <= L -> K + 2 + rk + 1 <= L ->
  is_mat W s rk -> lens G = [s; rk] -> mrel rnd u kM s rk M m0 m1 -> mrel rnd u K rk rk S h0 h1 ->
  exists G', gradsubprob M S W G = Ok G' /\
    mrel rnd u (L + 1) s rk G'
      (fun a r => @bigsum Rnum _ (seq 0 rk) (fun x => @el Rnum (reals W) a x * h0 x r) - m0 a r)%R
      (fun a r => @bigsum Rnum _ (seq 0 rk) (fun x => @el Rnum (absols W) a x * h1 x r) + m1 a r)%R.
Proof.
  intros HL1 HL2 [HW1 HW2] HG [[HM1 HM2] HM] [[HS1 HS2] HS]. unfold gradsubprob.
  rewrite (raw_grad _ _ _ _ s rk rk) by auto. eexists; split; [reflexivity|].
  apply mrel_mk. intros a r Ha Hr.
  assert (HWS : rel u (K + 2 + rk) (@bigsum N _ (seq 0 rk) (fun x => @nmul N (el W a x) (@nmul N (el S x r) n1)))
     (@bigsum Rnum _ (seq 0 rk) (fun x => @el Rnum (reals W) a x * h0 x r)%R) (@bigsum Rnum _ (seq 0 rk) (fun x => @el Rnum (absols W) a x * h1 x r)%R)).
  { replace (K + 2 + rk) with (K + 2 + length (seq 0 rk)) by (rewrite seq_length; auto).
    apply (rel_bigsum rnd u RE). intros x Hx. apply in_seq in Hx.
    change (@nmul N ?p (@nmul N ?q n1)) with (rnd (p * rnd (q * 1))%R). rewrite RIneq.Rmult_1_r.
    replace (K + 2) with (Datatypes.S (0 + Datatypes.S K)) by lia. apply rel_rnd. apply rel_mult; [apply rel_el|]. apply rel_rnd. apply HS; lia. }
  specialize (HM a r Ha Hr). revert HM HWS.
  generalize (m0 a r) (m1 a r) (@bigsum Rnum _ (seq 0 rk) (fun x => @el Rnum (reals W) a x * h0 x r)%R) (@bigsum Rnum _ (seq 0 rk) (fun x => @el Rnum (absols W) a x * h1 x r)%R).
  generalize (@bigsum N _ (seq 0 rk) (fun x => @nmul N (el W a x) (@nmul N (el S x r) n1))) (el M a r).
  intros ws mm. change (car Rnum) with Rdefinitions.R in *. change (car N) with Rdefinitions.R in *. intros x0 x1 w0 w1 HM HWS.
  change (rel u (L + 1) (rnd (rnd (- (1) * rnd (mm * 1)) + rnd (1 * ws))%R) (w0 - x0) (w1 + x1)).
  rewrite RIneq.Rmult_1_r, Rmult_1_l. rewrite Nat.add_1_r. apply rel_rnd.
  replace (w0 - x0)%R with (- x0 + w0)%R by ring. replace (w1 + x1)%R with (x1 + w1)%R by ring.
  apply rel_plus.
  - apply rel_mono with (Datatypes.S (Datatypes.S kM)); [auto|lia|]. apply rel_rnd. apply rel_rnd in HM.
    destruct HM as [Q1 Q2]. split; [|rewrite Rabs_Ropp; auto]. replace (- (1) * rnd mm - - x0)%R with (- (rnd mm - x0))%R by lra. rewrite Rabs_Ropp. auto.
  - apply rel_mono with (Datatypes.S (K + 2 + rk)); [auto|lia|]. apply rel_rnd. auto.
Qed.

Lemma mttkrp_mrel (V : tensor N) W n rk k M : mttkrp_within u k V W n rk M ->
  mrel rnd u k (nth n (lens V) 0) rk M (@el Rnum (mttkrp (reals V) (map reals W) n rk)) (@el Rnum (mttkrp (absols V) (map absols W) n rk)).
Proof.
  intros [H1 H]. split; [exact H1|]. intros a r Ha Hr. split; [apply H; auto|].
  unfold mttkrp, el. cbn [lens reals absols]. rewrite !(@at_tabulate Rnum) by (apply inb2; auto). unfold mttkrp_at.
  change (lens (reals V)) with (lens V). change (lens (absols V)) with (lens V). change (order (reals V)) with (order V). change (order (absols V)) with (order V).
  apply abs_sum. intros x _. apply abs_mult; [rewrite absols_at, reals_at; lra|]. apply abs_prod. intros m' _.
  rewrite !fac_map by reflexivity. unfold el. rewrite absols_at, reals_at. lra.
Qed.
Lemma mrel_within k r c A X Y : mrel rnd u k r c A (@el Rnum X) (@el Rnum Y) -> mat_within u k r c A X Y.
Proof. intros [H1 H2]. split; [exact H1|]. intros i j Hi Hj. apply H2; auto. Qed.

Lemma is_mat_reals (A : tensor N) r c : is_mat A r c -> @is_mat Rnum (reals A) r c.
Proof. intros [E1 E2]; split; auto. Qed.
Lemma is_mat_absols (A : tensor N) r c : is_mat A r c -> @is_mat Rnum (absols A) r c.
Proof. intros [E1 E2]; split; auto. unfold wf, absols. cbn [lens data]. rewrite map_length. exact E2. Qed.

Section Mode.
Context (V : tensor N) (F W : list (tensor N)) (rk n : nat) (lambda : Rdefinitions.R).
Let s := nth n (lens V) 0.
Let rhs := @als_rhs Rnum (reals V) (map reals F) (map reals W) rk n.
Let rhs_abs := @als_rhs Rnum (absols V) (map absols F) (map absols W) rk n.
Let lhs := @als_lhs Rnum lambda (map reals W) rk n.
Let lhs_abs := @als_lhs Rnum (Rabs lambda) (map absols W) rk n.
Hypothesis HW : factors_ok V W rk.
Hypothesis Hn : n < order V.
Hypothesis Ho : 2 <= order V.

Lemma kgram_roundings : kgram rnd W (others n (order V)) = gram_roundings (lens V) n.
Proof.
  unfold kgram, gram_roundings, ksum. f_equal. apply map_ext_in. intros m Hm. apply others_in in Hm as [Hm _].
  destruct HW as (_ & _ & H3). destruct (H3 m) as [Em _]; [exact Hm|]. unfold nrow. rewrite Em. reflexivity.
Qed.
Lemma roundings_le : 3 <= mode_roundings (lens V) n /\ mode_roundings (lens V) n + 1 <= gram_roundings (lens V) n.
Proof.
  unfold mode_roundings, gram_roundings. change (length (lens V)) with (order V).
  assert (Hl : length (others n (order V)) = order V - 1).
  { pose proof (Permutation_length (others_perm n (order V) Hn)) as H. rewrite seq_length in H. cbn [length] in H. lia. }
  destruct (others n (order V)) as [|a l]; [cbn in Hl; lia|]. cbn [map fold_right].
  assert (fold_right Nat.add 0 (map (fun m => nth m (lens V) 0 + 3) l) <= fold_right Nat.add 0 (map (fun m => nth m (lens V) 0 + 4) l)).
  { clear. induction l as [|b l IH]; cbn; lia. }
  lia.
Qed.

Lemma regul_r : mrel rnd u 1 rk rk (mk rk rk (fun i j => if Nat.eqb i j then @nmul N lambda n1 else n0))
  (@el Rnum (@mscal Rnum lambda (mid rk))) (@el Rnum (@mscal Rnum (Rabs lambda) (mid rk))).
Proof.
  apply mrel_mk. intros i j Hi Hj. rewrite !(el_mscal (N:=Rnum) _ _ rk rk) by (auto; apply mdiag_mat). unfold mid.
  rewrite !(el_mdiag (N:=Rnum)) by auto. destruct (Nat.eqb_spec i j) as [_|_]; cbn [nmul n1 n0 Rnum].
  - rewrite !RIneq.Rmult_1_r. change (@nmul N lambda n1) with (rnd (lambda * 1)%R). rewrite RIneq.Rmult_1_r. apply (rel_rnd 0). apply rel_refl.
  - rewrite !Rmult_0_r. apply rel_mono with 0; [auto|lia|]. apply rel_const. rewrite Rabs_R0. lra.
Qed.
Lemma lhs_r S : mrel rnd u (gram_roundings (lens V) n) rk rk S (@hgram_at Rnum (map reals W) n) (@hgram_at Rnum (map absols W) n) ->
  forall regul, @mk_regul N rk lambda = Ok regul ->
  exists S', assign true S sij [prodt [(regul, sij)]] = Ok S' /\
    mrel rnd u (gram_roundings (lens V) n + 1) rk rk S' (@el Rnum lhs) (@el Rnum lhs_abs).
Proof.
  intros HS regul E. rewrite raw_regul in E. injection E as <-. pose proof roundings_le as [H3 H4].
  destruct (mrel_add (gram_roundings (lens V) n) 1 (gram_roundings (lens V) n) rk rk S _ _ _ _ _ ltac:(lia) ltac:(lia) HS regul_r) as (S' & E & H).
  exists S'. split; [exact E|]. eapply mrel_ext; [exact H|]. intros i j Hi Hj. unfold lhs, lhs_abs, als_lhs.
  rewrite !(el_madd (N:=Rnum) _ _ rk rk) by (auto; apply (hgram_mat (N:=Rnum))). cbn [nadd Rnum].
  assert (Eh : forall X, @el Rnum (hgram X n rk) i j = @hgram_at Rnum X n i j).
  { intros X. unfold el, hgram. rewrite (@at_tabulate Rnum) by (apply inb2; auto). reflexivity. }
  rewrite !Eh. auto.
Qed.
(** without regularisation *)
Lemma lhs_r0 S : lambda = 0%R -> mrel rnd u (gram_roundings (lens V) n) rk rk S (@hgram_at Rnum (map reals W) n) (@hgram_at Rnum (map absols W) n) ->
  mrel rnd u (gram_roundings (lens V) n + 1) rk rk S (@el Rnum lhs) (@el Rnum lhs_abs).
Proof.
  intros E0 HS. apply (mrel_mono rnd u RE) with (gram_roundings (lens V) n); [lia|].
  eapply mrel_ext; [exact HS|]. intros i j Hi Hj. unfold lhs, lhs_abs, als_lhs. rewrite E0.
  rewrite !(el_madd (N:=Rnum) _ _ rk rk) by (auto; apply (hgram_mat (N:=Rnum))). cbn [nadd Rnum].
  rewrite !(el_mscal (N:=Rnum) _ _ rk rk) by (auto; apply mdiag_mat). cbn [nmul Rnum]. rewrite Rabs_R0, !Rmult_0_l, !RIneq.Rplus_0_r.
  assert (Eh : forall X, @el Rnum (hgram X n rk) i j = @hgram_at Rnum X n i j).
  { intros X. unfold el, hgram. rewrite (@at_tabulate Rnum) by (apply inb2; auto). reflexivity. }
  rewrite !Eh. auto.
Qed.
Lemma rhs_r kM M : 2 <= kM -> mttkrp_within u kM V W n rk M -> is_mat (fac F n) s rk ->
  exists M', assign true M sij [prodt [(fac F n, sij)]] = Ok M' /\
    mrel rnd u (kM + 1) s rk M' (@el Rnum rhs) (@el Rnum rhs_abs).
Proof.
  intros HkM HM HF. apply mttkrp_mrel in HM.
  assert (HF' : mrel rnd u 0 s rk (fac F n) (@el Rnum (reals (fac F n))) (@el Rnum (absols (fac F n)))) by (split; [exact HF|intros; apply rel_el]).
  destruct (mrel_add kM 0 kM s rk M _ _ _ _ _ ltac:(lia) ltac:(lia) HM HF') as (M' & E & H).
  exists M'. split; [exact E|]. eapply mrel_ext; [exact H|]. intros i j Hi Hj. unfold rhs, rhs_abs, als_rhs.
  rewrite !(el_madd (N:=Rnum) _ _ s rk) by (auto; apply (mttkrp_mat (N:=Rnum))). rewrite !fac_map by reflexivity. auto.
Qed.
(** no F at all: fac F n is the empty matrix *)
Lemma rhs_r0 M : mttkrp_within u (mode_roundings (lens V) n) V W n rk M -> fac F n = tnil ->
  mrel rnd u (mode_roundings (lens V) n + 1) s rk M (@el Rnum rhs) (@el Rnum rhs_abs).
Proof.
  intros HM EF. apply mttkrp_mrel in HM. apply (mrel_mono rnd u RE) with (mode_roundings (lens V) n); [lia|].
  eapply mrel_ext; [exact HM|]. intros i j Hi Hj. unfold rhs, rhs_abs, als_rhs.
  rewrite !(el_madd (N:=Rnum) _ _ s rk) by (auto; apply (mttkrp_mat (N:=Rnum))). rewrite !fac_map by reflexivity. rewrite EF.
  assert (E0 : forall h : tensor N -> tensor Rnum, h tnil = tnil -> @el Rnum (h tnil) i j = 0%R).
  { intros h E. rewrite E. unfold el, at_, tnil. cbn. reflexivity. }
  rewrite !E0 by reflexivity. cbn [nadd Rnum]. rewrite !RIneq.Rplus_0_r. auto.
Qed.

Theorem solve_step_r kM (LA : lapack N) (M S : tensor N) : svd_shaped (svd LA) ->
  mrel rnd u (kM + 1) s rk M (@el Rnum rhs) (@el Rnum rhs_abs) ->
  mrel rnd u (gram_roundings (lens V) n + 1) rk rk S (@el Rnum lhs) (@el Rnum lhs_abs) ->
  exists A, SVD_solve LA M (fac W n) S = Ok A /\ is_mat A s rk /\ als_solve_within u kM (svd LA) lambda V F rk W n (setf W n A).
Proof.
  intros Hsh HM HS. destruct HW as (HwV & HL & HWm). pose proof (HWm n Hn) as HWn. fold s in HWn.
  destruct (solve_r LA M (fac W n) S s rk) as (A & EA & HA); [apply HM|apply HWn|apply HS|auto|].
  exists A. split; [exact EA|].
  assert (HAm : is_mat A s rk) by (destruct (svd LA S rk) as [[U sv] VT]; apply HA).
  split; [exact HAm|]. unfold als_solve_within. cbv zeta. fold s rhs rhs_abs lhs lhs_abs. exists M, S, A.
  split; [apply mrel_within; exact HM|]. split; [apply mrel_within; exact HS|]. split; [exact HA|]. reflexivity.
Qed.
Theorem grad_step_r (M S g : tensor N) : lens g = [s; rk] ->
  mrel rnd u (mode_roundings (lens V) n + 1) s rk M (@el Rnum rhs) (@el Rnum rhs_abs) ->
  mrel rnd u (gram_roundings (lens V) n + 1) rk rk S (@el Rnum lhs) (@el Rnum lhs_abs) ->
  exists g', gradsubprob M S (fac W n) g = Ok g' /\ is_mat g' s rk /\ als_grad_within u lambda V F rk W n g'.
Proof.
  intros Hg HM HS. pose proof roundings_le as [H3 H4]. destruct HW as (HwV & HL & HWm). pose proof (HWm n Hn) as HWn. fold s in HWn.
  destruct (gradsub_rel (mode_roundings (lens V) n + 1) (gram_roundings (lens V) n + 1) (gram_roundings (lens V) n + rk + 4 + 1 - 1) s rk (fac W n) g M S _ _ _ _ ltac:(lia) ltac:(lia) HWn Hg HM HS) as (g' & Eg & Hg').
  exists g'. split; [exact Eg|]. split; [apply Hg'|]. unfold als_grad_within. fold s rhs rhs_abs lhs lhs_abs.
  apply mrel_within. apply (mrel_mono rnd u RE) with (gram_roundings (lens V) n + rk + 4 + 1 - 1 + 1); [lia|]. eapply mrel_ext; [exact Hg'|].
  intros i j Hi Hj. rewrite !fac_map by reflexivity.
  assert (L1 : is_mat lhs rk rk) by apply (lhs_mat (N:=Rnum)). assert (L2 : is_mat lhs_abs rk rk) by apply (lhs_mat (N:=Rnum)).
  pose proof (is_mat_reals _ _ _ HWn) as W1. pose proof (is_mat_absols _ _ _ HWn) as W2.
  rewrite (el_msub (N:=Rnum) _ _ s rk) by (auto; apply (mmul_mat (N:=Rnum) _ _ s rk rk); auto).
  rewrite (el_madd (N:=Rnum) _ _ s rk) by (auto; apply (mmul_mat (N:=Rnum) _ _ s rk rk); auto).
  rewrite !(el_mmul (N:=Rnum) _ _ s rk rk) by auto. split; reflexivity.
Qed.
End Mode.
End Rnd.
