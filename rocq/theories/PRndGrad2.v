(** The gradient norm and the gradient of the dimension-tree method in rounded arithmetic *)
From Coq Require Import List ZArith Reals Lra Lia Bool Arith Permutation.
From Verif Require Import Base Num NumR Tensor Spec Spec27 Spec28 MCommon MCP PBase PTensor PSum PMttkrp PMat PKhatri PGrad PResid PConv PErr PRnd PRndDT PRndDT2 PRndKR PRndNorm PRndGrad.
Import ListNotations.
Local Open Scope R_scope.

Section Rnd.
Context (rnd : R -> R) (u : R) (RE : rel_err rnd u).
Let Hu : 0 <= u := proj1 RE.
Notation N := (Fl rnd).

(** sumnorm: relative error with respect to the norm of the given matrices *)
Lemma sumnorm_r (G : list (tensor N)) o n : length G = o -> (forall m, (m < o)%nat -> (length (data (fac G m)) <= n)%nat) ->
  exists p, sumnorm o G = Ok p /\
    Rabs (p - nrm (seq 0 o) (fun m => @norm2 Rnum (reals (fac G m)))) <= gam u (2 * n + o + 6) * nrm (seq 0 o) (fun m => @norm2 Rnum (reals (fac G m))).
Proof.
  intros HL Hn. unfold sumnorm. set (q := fun m : nat => @norm2 Rnum (reals (fac G m))).
  destruct (for_inv (fun i (p : N) => rel u (2 * n + 5 + i) p (@bigsum Rnum _ (seq 0 i) (fun m => q m * q m)) (@bigsum Rnum _ (seq 0 i) (fun m => q m * q m)))
     (fun i p => g <- lget G i ;; Ok (p + norm2 g * norm2 g)%num) 0 o n0) as (p & E & Hp).
  - lia.
  - cbn. split; [rewrite Rminus_0_r, Rabs_R0; lra|rewrite Rabs_R0; lra].
  - intros i p Hi Hp. rewrite (lget_ok G i tnil) by lia. cbn [bind]. eexists; split; [reflexivity|]. fold (fac G i).
    rewrite seq_S, (bigsum_app Rnum_ring). cbn [plus bigsum fold_right]. cbn [nadd n0 Rnum]. rewrite Rplus_0_r.
    change (@nadd N ?a (@nmul N ?b ?c)) with (rnd (a + rnd (b * c))).
    replace (2 * n + 5 + S i)%nat with (S (2 * n + 5 + i)) by lia. apply (rel_rnd rnd u RE). apply rel_plus; auto.
    assert (HN : rel u (n + 2) (@norm2 N (fac G i)) (q i) (q i)).
    { split; [|rewrite Rabs_pos_eq; [lra|apply norm2_pos]].
      pose proof (norm2_rounded rnd u RE (fac G i)) as H. eapply Rle_trans; [exact H|]. apply Rmult_le_compat_r; [apply norm2_pos|].
      apply gam_mono; auto. specialize (Hn i). lia. }
    apply rel_mono with (S ((n + 2) + (n + 2)))%nat; [auto|lia|]. apply (rel_rnd rnd u RE). apply rel_mult; auto.
  - rewrite E. cbn [bind]. eexists; split; [reflexivity|].
    change (@nsqrt N p) with (rnd (sqrt p)). pose proof (rel_Y _ _ _ _ _ Hp) as HY. destruct Hp as [Hp _].
    change (nrm (seq 0 o) q) with (sqrt (@bigsum Rnum _ (seq 0 o) (fun m => q m * q m))).
    set (s := @bigsum Rnum _ (seq 0 o) (fun m => q m * q m)) in *. change (car Rnum) with R in *. change (car N) with R in *. clearbody s q.
    assert (K : rel u (2 * n + 5 + o) (sqrt p) (sqrt s) (sqrt s)).
    { split; [|rewrite Rabs_pos_eq; [lra|apply sqrt_pos]]. apply sqrt_rel; auto. apply gam_pos; auto. }
    apply (rel_rnd rnd u RE) in K. replace (2 * n + o + 6)%nat with (S (2 * n + 5 + o)) by lia. apply K.
Qed.

(** against the exact gradient *)
Lemma grad_norm_r (V : tensor N) W rk (G : list (tensor N)) n K (kf : nat -> nat) : length G = order V ->
  (forall m, (m < order V)%nat -> (nth m (lens V) 0 * rk <= n)%nat) ->
  (forall m, (m < order V)%nat -> (kf m <= K)%nat) ->
  (forall m, (m < order V)%nat -> grad_within u (kf m) V W m rk (fac G m)) ->
  (forall m, (m < order V)%nat -> is_mat (fac W m) (nth m (lens V) 0%nat) rk) -> length W = order V ->
  exists p, sumnorm (order V) G = Ok p /\
    Rabs (p - @grad_norm Rnum (map (grad_spec (reals V) (map reals W) rk) (seq 0 (order V))))
      <= gam u (2 * n + order V + 6) * @grad_norm Rnum (map (grad_spec (reals V) (map reals W) rk) (seq 0 (order V)))
         + gam u (2 * n + order V + 6 + K) * @grad_norm Rnum (map (grad_mass V W rk) (seq 0 (order V))).
Proof.
  intros HL Hn HK HG HW HLW. set (o := order V) in *.
  destruct (sumnorm_r G o n HL) as (p & E & Hp).
  { intros m Hm. destruct (HG m Hm) as [[E1 E2] _]. unfold wf in E2. rewrite E2, E1. cbn [size fold_right]. specialize (Hn m Hm). unfold size. cbn. lia. }
  exists p. split; [exact E|].
  assert (EG : forall f : nat -> tensor Rnum, @grad_norm Rnum (map f (seq 0 o)) = nrm (seq 0 o) (fun m => norm2 (f m))).
  { intros f. unfold grad_norm, nrm. rewrite bigsum_map. reflexivity. }
  rewrite !EG. apply (two_errors u _ _ p (nrm (seq 0 o) (fun m => @norm2 Rnum (reals (fac G m))))); auto using nrm_nonneg.
  apply nrm_close; [apply gam_pos; auto|]. intros m Hm. apply in_seq in Hm.
  destruct (HG m ltac:(lia)) as [[E1 E2] H]. destruct (HW m ltac:(lia)) as [EW EWw].
  set (s := nth m (lens V) 0%nat) in *.
  rewrite norm2_nrm by exact E2. cbn [reals lens]. rewrite E1.
  assert (Es : lens (grad_spec (reals V) (map reals W) rk m) = [s; rk]).
  { unfold grad_spec, msub, mmul. cbn [lens tabulate hgram]. rewrite fac_map by reflexivity. unfold nrow, ncol. cbn [reals lens]. rewrite EW. reflexivity. }
  rewrite norm2_nrm by apply tabulate_wf. rewrite Es.
  rewrite (norm2_nrm (grad_mass V W rk m)) by apply tabulate_wf. cbn [grad_mass lens tabulate]. fold s.
  apply nrm_close; [apply gam_pos; auto|]. intros x Hx. apply all_idx_in, inb2_inv in Hx as (a & b & -> & Ha & Hb).
  eapply Rle_trans; [apply (H a b Ha Hb)|]. apply Rmult_le_compat_r.
  - unfold el. unfold grad_mass. rewrite (@at_tabulate Rnum) by (apply inb2; auto).
    assert (B : forall X (l : list X) (f : X -> R), (forall x, In x l -> 0 <= f x) -> 0 <= @bigsum Rnum _ l f).
    { clear. intros X l f. induction l as [|x l IH]; intros H; cbn; [lra|]. apply Rplus_le_le_0_compat; [apply H; left; auto|apply IH; intros; apply H; right; auto]. }
    assert (P : forall X (l : list X) (f : X -> R), (forall x, In x l -> 0 <= f x) -> 0 <= @bigprod Rnum _ l f).
    { clear. intros X l f. induction l as [|x l IH]; intros H; cbn; [lra|]. apply Rmult_le_pos; [apply H; left; auto|apply IH; intros; apply H; right; auto]. }
    assert (A0 : forall (T : tensor N) y, 0 <= @at_ Rnum (absols T) y) by (intros; rewrite absols_at; apply Rabs_pos).
    assert (F0 : forall m' i j, 0 <= @el Rnum (fac (map absols W) m') i j) by (intros; rewrite fac_map by reflexivity; apply A0).
    apply Rplus_le_le_0_compat.
    + unfold mmul. rewrite fac_map by reflexivity. unfold nrow, ncol. cbn [lens absols hgram tabulate]. rewrite EW. cbn [nth].
      rewrite (@at_tabulate Rnum) by (apply inb2; auto). apply B. intros x Hx. apply in_seq in Hx. apply Rmult_le_pos; [apply A0|].
      unfold el, hgram. rewrite (@at_tabulate Rnum) by (apply inb2; cbn in *; lia). unfold hgram_at. apply P. intros m' _. unfold gram_at. apply B. intros y _.
      apply Rmult_le_pos; apply F0.
    + unfold mttkrp. cbn [lens absols]. rewrite (@at_tabulate Rnum) by (apply inb2; auto). unfold mttkrp_at. apply B. intros x _.
      apply Rmult_le_pos; [apply A0|]. apply P. intros m' _. apply F0.
  - apply gam_mono; auto. apply HK. lia.
Qed.

Lemma abs_sum {X} (l : list X) (f g : X -> R) : (forall x, In x l -> Rabs (f x) <= g x) -> Rabs (@bigsum Rnum _ l f) <= @bigsum Rnum _ l g.
Proof.
  induction l as [|x l IH]; intros H; cbn; [rewrite Rabs_R0; lra|].
  eapply Rle_trans; [apply Rabs_triang|]. apply Rplus_le_compat; [apply H; left; auto|apply IH; intros; apply H; right; auto].
Qed.
Lemma abs_prod {X} (l : list X) (f g : X -> R) : (forall x, In x l -> Rabs (f x) <= g x) -> Rabs (@bigprod Rnum _ l f) <= @bigprod Rnum _ l g.
Proof.
  induction l as [|x l IH]; intros H; cbn; [rewrite Rabs_R1; lra|].
  rewrite Rabs_mult. apply Rmult_le_compat; auto using Rabs_pos. { apply H; left; auto. } apply IH; intros; apply H; right; auto.
Qed.
Lemma abs_mult x y X Y : Rabs x <= X -> Rabs y <= Y -> Rabs (x * y) <= X * Y.
Proof. intros. rewrite Rabs_mult. apply Rmult_le_compat; auto using Rabs_pos. Qed.
Lemma grad_le_mass (V : tensor N) W rk n a r : (n < order V)%nat -> factors_ok V W rk -> (a < nth n (lens V) 0)%nat -> (r < rk)%nat ->
  Rabs (@el Rnum (grad_spec (reals V) (map reals W) rk n) a r) <= @el Rnum (grad_mass V W rk n) a r.
Proof.
  intros Hn (HwV & HL & HW) Ha Hr. destruct (HW n Hn) as [EW _]. set (s := nth n (lens V) 0%nat) in *.
  assert (A0 : forall (T : tensor N) y, Rabs (@at_ Rnum (reals T) y) <= @at_ Rnum (absols T) y) by (intros; rewrite absols_at, reals_at; lra).
  assert (F0 : forall m' i j, Rabs (@el Rnum (fac (map reals W) m') i j) <= @el Rnum (fac (map absols W) m') i j) by (intros; rewrite !fac_map by reflexivity; apply A0).
  unfold el at 2, grad_mass. rewrite (@at_tabulate Rnum) by (apply inb2; auto).
  unfold grad_spec, msub, el. rewrite (@at_tabulate Rnum).
  2:{ rewrite fac_map by reflexivity. unfold mmul, nrow, ncol. cbn [lens tabulate reals hgram nth]. rewrite EW. apply inb2; auto. }
  change (@nsub Rnum) with Rminus. unfold Rminus. eapply Rle_trans; [apply Rabs_triang|]. rewrite Rabs_Ropp. apply Rplus_le_compat.
  - unfold mmul. rewrite !fac_map by reflexivity. unfold nrow, ncol. cbn [lens absols reals hgram tabulate]. rewrite EW. cbn [nth].
    rewrite !(@at_tabulate Rnum) by (apply inb2; auto). apply abs_sum. intros x Hx. apply in_seq in Hx. apply abs_mult; [apply A0|].
    unfold el, hgram. rewrite !(@at_tabulate Rnum) by (apply inb2; cbn in *; lia). unfold hgram_at. rewrite !map_length. apply abs_prod. intros m' _. unfold gram_at, nrow.
    rewrite !fac_map by reflexivity. cbn [lens absols reals]. apply abs_sum. intros y _. apply abs_mult; apply A0.
  - unfold mttkrp. cbn [lens absols reals]. rewrite !(@at_tabulate Rnum) by (apply inb2; auto). unfold mttkrp_at. apply abs_sum. intros x _.
    apply abs_mult; [apply A0|]. apply abs_prod. intros m' _. apply F0.
Qed.

(** G["ij"] - F["ij"] for F = 0: three more roundings *)
Lemma raw_lin C (A B : tensor N) a b r c : lens C = [r; c] -> lens A = [r; c] -> lens B = [r; c] ->
  assign false C sij [mkTerm a [(A, sij)]; mkTerm b [(B, sij)]]
  = Ok (mk r c (fun i j => a * (el A i j * n1) + b * (el B i j * n1))%num).
Proof.
  intros HC HA HB. apply (assign_mat (d3 r c 0)); [discriminate|auto| |].
  - intros t H; simpl in H; repeat (destruct H as [H|H]; [subst t|]); try contradiction;
    intros p H; simpl in H; repeat (destruct H as [H|H]; [subst p|]); try contradiction; simpl; unfold d3; simpl; auto.
  - intros i j Hi Hj. cbv -[nadd nmul nopp nsub n0 n1 bigsum at_ el seq car]. reflexivity.
Qed.
Lemma minus_zero (V : tensor N) W rk n k (G F : tensor N) : (n < order V)%nat -> factors_ok V W rk ->
  grad_within u k V W n rk G -> is_mat F (nth n (lens V) 0%nat) rk ->
  (forall i j, (i < nth n (lens V) 0)%nat -> (j < rk)%nat -> el F i j = 0) ->
  exists D, assign false (zeros [nth n (lens V) 0%nat; rk]) sij [mkTerm n1 [(G, sij)]; mkTerm (- n1)%num [(F, sij)]] = Ok D /\
    grad_within u (k + 3) V W n rk D.
Proof.
  intros Hn HW [[HGl HGw] HG] [HFl HFw] HF.
  rewrite (raw_lin _ _ _ _ _ (nth n (lens V) 0%nat) rk) by auto. eexists; split; [reflexivity|]. split; [apply mk_mat|].
  intros a r Ha Hr. rewrite el_mk by auto. rewrite HF by auto.
  assert (H : rel u k (el G a r) (@el Rnum (grad_spec (reals V) (map reals W) rk n) a r) (@el Rnum (grad_mass V W rk n) a r)) by (split; [auto|apply grad_le_mass; auto]).
  assert (Hr0 : rnd 0 = 0). { pose proof (proj2 RE 0) as Q. rewrite Rabs_R0, Rmult_0_r, Rminus_0_r in Q. destruct (Req_dec (rnd 0) 0); auto. pose proof (Rabs_pos_lt (rnd 0)). exfalso; lra. }
  set (x := @el N G a r) in *. set (y := @el Rnum (grad_spec (reals V) (map reals W) rk n) a r) in *. set (Y := @el Rnum (grad_mass V W rk n) a r) in *.
  change (Rabs (rnd (rnd (1 * rnd (x * 1)) + rnd (- (1) * rnd (0 * 1))) - y) <= gam u (k + 3) * Y).
  rewrite Rmult_1_l, Rmult_1_r, Rmult_0_l, Hr0, Rmult_0_r, Hr0, Rplus_0_r.
  replace (k + 3)%nat with (S (S (S k))) by lia. apply (rel_rnd rnd u RE (S (S k))), (rel_rnd rnd u RE (S k)), (rel_rnd rnd u RE k). exact H.
Qed.

(** the convergence check of alsCP: gradient_CP, projected gradient (F = 0) and its norm *)
Theorem alsCP_check_r (clk : nat -> N) (V : tensor N) (F : list (tensor N)) (tol limit : N) (st : @als_state N) rk s :
  (2 <= order V <= 10)%nat -> lens V = repeat s (order V) -> factors_ok V (aW st) rk -> mats_ok V (aG st) rk -> mats_ok V F rk -> zero_mats V F rk ->
  exists stop st', alsCP_check clk V F tol limit st = Ok (stop, st') /\ aW st' = aW st /\
    (forall m, (m < order V)%nat -> grad_within u (grad_roundings (lens V) m rk) V (aW st) m rk (fac (aG st') m)) /\
    let o := order V in
    let exact := @grad_norm Rnum (map (grad_spec (reals V) (map reals (aW st)) rk) (seq 0 o)) in
    let mass := @grad_norm Rnum (map (grad_mass V (aW st) rk) (seq 0 o)) in
    Rabs (apn st' - exact) <= gam u (2 * (s * rk) + o + 6) * exact + gam u (2 * (s * rk) + o + 6 + ((o - 1) * (s + 4) + rk + 8)) * mass.
Proof.
  intros Ho Hc HW HG HF HF0. set (W := aW st) in *. set (o := order V) in *.
  assert (HVs : forall m, (m < o)%nat -> nth m (lens V) 0%nat = s) by (intros; rewrite Hc; apply nth_rep; auto).
  destruct (gradient_CP_r rnd u RE V W (aG st) rk s Ho Hc HW) as (G' & EG & HL & HG'); [apply HG| |].
  { intros m Hm. rewrite <- (HVs m Hm). apply HG; auto. }
  unfold alsCP_check. fold W. rewrite EG. cbn [bind]. fold o.
  destruct HG as [HGl HGm], HF as [HFl HFm]. pose proof HW as (HwV & HLW & HWm).
  destruct (for_inv (fun i acc => length acc = i /\ forall m, (m < i)%nat -> grad_within u (grad_roundings (lens V) m rk + 3) V W m rk (fac acc m))
    (fun i acc => Wi <- lget W i ;; g <- lget G' i ;; f <- lget F i ;;
       p <- assign false (zeros [nrow Wi; ncol Wi]) sij [mkTerm n1 [(g, sij)]; mkTerm (- n1)%num [(f, sij)]] ;;
       Ok (acc ++ [p])) 0%nat o []) as (proj & Ep & Hpl & Hpm).
  { lia. } { split; [reflexivity|]. intros; lia. }
  { intros i acc Hi [Hl Hacc]. rewrite (lget_ok W i tnil) by (fold o in HLW; lia). cbn [bind].
    rewrite (lget_ok G' i tnil) by lia. cbn [bind]. rewrite (lget_ok F i tnil) by (fold o in HFl; lia). cbn [bind]. fold (fac W i) (fac G' i) (fac F i).
    destruct (HWm i) as [EWi _]; [fold o; lia|]. unfold nrow, ncol. rewrite EWi. cbn [nth].
    destruct (minus_zero V W rk i (grad_roundings (lens V) i rk) (fac G' i) (fac F i)) as (D & ED & HD); auto.
    { fold o; lia. } { apply HG'. lia. } { apply HFm. fold o; lia. } { intros a b Ha Hb. apply HF0; auto. fold o; lia. }
    rewrite ED. cbn [bind]. eexists; split; [reflexivity|]. split; [rewrite app_length; cbn; lia|].
    intros m Hm. unfold fac. destruct (Nat.eq_dec m i) as [->|Hne].
    - rewrite app_nth2 by lia. rewrite Hl, Nat.sub_diag. exact HD.
    - rewrite app_nth1 by lia. apply Hacc. lia. }
  rewrite Ep. cbn [bind].
  assert (HK : forall m, (m < o)%nat -> (grad_roundings (lens V) m rk + 3 <= (o - 1) * (s + 4) + rk + 8)%nat).
  { intros m Hm. unfold grad_roundings. change (length (lens V)) with o.
    assert (Hlen : length (others m o) = (o - 1)%nat).
    { pose proof (Permutation_length (others_perm m o Hm)) as H. rewrite seq_length in H. cbn [length] in H. lia. }
    rewrite <- Hlen.
    assert (Hin : forall k, In k (others m o) -> (k < o)%nat) by (intros k Hk; apply others_in in Hk; lia).
    generalize dependent (others m o). clear - HVs. intros l _ Hin.
    assert (K : (fold_right Nat.add 0 (map (fun m0 => nth m0 (lens V) 0 + 4) l) = length l * (s + 4))%nat); [|lia].
    induction l as [|k l IH]; cbn; auto. rewrite IH by (intros; apply Hin; right; auto). rewrite HVs by (apply Hin; left; auto). lia. }
  destruct (grad_norm_r V W rk proj (s * rk) ((o - 1) * (s + 4) + rk + 8) (fun m => grad_roundings (lens V) m rk + 3)%nat) as (p & Epn & Hp); auto.
  { intros m Hm. rewrite HVs by auto. auto. }
  fold o in Epn. rewrite Epn. cbn [bind].
  destruct (for_inv (fun (i : nat) (a : N) => True) (fun i (a : N) => f <- lget F i ;; Ok (a + norm2 f)%num) 0%nat o n0) as (fn & Ef & _).
  { lia. } { auto. }
  { intros i a Hi _. rewrite (lget_ok F i tnil) by (fold o in HFl; lia). cbn [bind]. eauto. }
  rewrite Ef. cbn [bind]. destruct (stop_test clk p tol limit (aio st)) as [stop x]. cbn.
  exists stop. eexists. split; [reflexivity|]. cbn [aW aG apn]. split; [reflexivity|]. split; [intros; apply HG'; auto|]. exact Hp.
Qed.

(** the dimension-tree method: MTTKRP, Gram matrix and gradient of one mode *)
Theorem dt_grad_r (V : tensor N) W rk i fuel parent sibling (mp : smap (tensor N)) Sm G idx :
  (order V = 4 \/ 6 <= order V <= 31)%nat -> (order V < fuel)%nat -> factors_ok V W rk -> (i < order V)%nat ->
  PTree.tree_maps (order V) parent sibling -> valid_at rnd u V rk W i mp ->
  lens Sm = [rk; rk] -> lens G = [nth i (lens V) 0%nat; rk] -> Permutation idx (seq 0 (order V)) -> nth (order V - 1) idx 0%nat = i ->
  exists mp' M S' G', dt_M fuel parent sibling V W mp i = Ok (mp', M) /\ gram_index Sm W (order V) (map Some idx) = Ok S' /\
    gradsubprob M S' (fac W i) G = Ok G' /\ grad_within u (grad_roundings (lens V) i rk) V W i rk G'.
Proof.
  intros Ho Hf HW Hi Ht Hv HS HG Hp Hn.
  destruct (PRndDT2.dt_M_ok rnd u RE V rk ltac:(lia) parent sibling Ht ltac:(lia) W i fuel mp HW Hi Hf Hv) as (mp' & M & EM & HM & _).
  destruct (gram_index_r rnd u RE Sm W (order V) rk idx i) as (S' & ES & HS'); auto; [lia|apply HW|eapply factors_cols; eauto|].
  destruct (gradsubprob_r rnd u RE V W rk i G M S' (mode_roundings (lens V) i) HW Hi HG HM ltac:(lia) HS') as (G' & EG & HG').
  exists mp', M, S', G'. auto.
Qed.
End Rnd.
