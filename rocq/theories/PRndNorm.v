(** The residual norm in rounded arithmetic *)
From Coq Require Import List ZArith Reals Lra Lia Bool Arith Permutation.
From Verif Require Import Base Num NumR Tensor Spec Spec27 Spec28 MCommon MCP PBase PTensor PSum PMttkrp PMat PKhatri PResid PDT PDTSweep PGrad PMono PALS PDrivers PConv PErr PRnd PRndDT PRndDT2 PRndBV.
Import ListNotations.
Local Open Scope R_scope.

(** ** norms of nearby vectors *)
Lemma nrm_close {X} (L : list X) (F f A : X -> R) g : 0 <= g -> (forall x, In x L -> Rabs (F x - f x) <= g * A x) ->
  Rabs (nrm L F - nrm L f) <= g * nrm L A.
Proof.
  intros Hg HF.
  assert (HA : nrm L (fun x => F x - f x) <= g * nrm L A).
  { assert (nrm L (fun x => F x - f x) <= nrm L (fun x => g * A x)).
    { unfold nrm. apply sqrt_le_1_alt. apply bs_le. intros x Hx. pose proof (HF x Hx) as H1.
      set (z := F x - f x) in *. set (w := g * A x) in *. clearbody z w. pose proof (Rabs_pos z).
      rewrite <- (Rabs_pos_eq (z * z)) by apply Rle_0_sqr. rewrite Rabs_mult. apply Rmult_le_compat; lra. }
    eapply Rle_trans; [exact H|]. right. unfold nrm.
    transitivity (sqrt (g * g * @bigsum Rnum _ L (fun x => A x * A x))).
    { f_equal. rewrite <- bs_mul_l. apply bs_ext. intros; ring. }
    rewrite sqrt_mult_alt by apply Rle_0_sqr. rewrite sqrt_square by auto. reflexivity. }
  pose proof (minkowski L (fun x => F x - f x) f) as M1. cbv beta in M1. rewrite (nrm_ext L (fun x => F x - f x + f x) F) in M1 by (intros; ring).
  pose proof (minkowski L (fun x => f x - F x) F) as M2. cbv beta in M2. rewrite (nrm_ext L (fun x => f x - F x + F x) f) in M2 by (intros; ring).
  assert (M3 : nrm L (fun x => f x - F x) = nrm L (fun x => F x - f x)).
  { unfold nrm. f_equal. apply bs_ext. intros; ring. }
  rewrite M3 in M2. apply Rabs_le. lra.
Qed.
(** a norm of nearby values, computed with its own relative error *)
Lemma two_errors u n k r nF nf nA : 0 <= u -> 0 <= nA -> Rabs (r - nF) <= gam u n * nF -> Rabs (nF - nf) <= gam u k * nA ->
  Rabs (r - nf) <= gam u n * nf + gam u (n + k) * nA.
Proof.
  intros Hu HA0 HN Hdif. pose proof (gam_pos u n Hu) as Hg. pose proof (gam_pos u k Hu) as Hg'.
  pose proof (Rabs_triang (r - nF) (nF - nf)) as T. replace (r - nF + (nF - nf)) with (r - nf) in T by ring.
  assert (nF <= nf + gam u k * nA) by (pose proof (Rle_abs (nF - nf)); lra).
  pose proof (Rmult_le_compat_l _ _ _ Hg H) as T2.
  assert (EG : gam u (n + k) = gam u n * gam u k + gam u n + gam u k) by (unfold gam; rewrite pow_add; ring).
  rewrite EG. assert (0 <= gam u n * nA) by (apply Rmult_le_pos; auto).
  set (a := gam u n) in *. set (b := gam u k) in *. clearbody a b.
  assert (Rabs (r - nF) <= a * nf + a * (b * nA)) by (eapply Rle_trans; [exact HN|lra]).
  lra.
Qed.

Section Rnd.
Context (rnd : R -> R) (u : R) (RE : rel_err rnd u).
Let Hu : 0 <= u := proj1 RE.
Notation N := (Fl rnd).

(** one term c * product of a statement *)
Lemma term_rel d sC (c : R) (l : list (fac_ rnd)) cs k e :
  (forall q, In q l -> arep rnd u d (ft rnd q) (fs rnd q) (fk rnd q) (fg rnd q) (fG rnd q)) -> NoDup cs ->
  (forall ch, In ch cs <-> In ch (flat_map snd (map (fpair rnd) l)) /\ ~ In ch sC) ->
  (forall q, In q l -> @envext Rnum (fg rnd q) /\ @envext Rnum (fG rnd q)) ->
  inr d sC e -> k = S (ksum (map (fk rnd) l) + length l + ksum (map d cs)) ->
  rel u k (@PTensor.tval N d sC (@mkTerm N c (map (fpair rnd) l)) e)
    (c * @sumc Rnum d cs (fun e' => @bigprod Rnum _ l (fun q => fg rnd q e')) e)
    (Rabs c * @sumc Rnum d cs (fun e' => @bigprod Rnum _ l (fun q => fG rnd q e')) e).
Proof.
  intros Hl Hn Hc Hx He ->. unfold PTensor.tval. cbn [coef facs].
  assert (Hp : Permutation (contracted sC (map (fpair rnd) l)) cs).
  { apply NoDup_Permutation; auto; [apply NoDup_nodup|]. intros ch. rewrite contracted_spec. symmetry. apply Hc. }
  assert (EP : forall h : fac_ rnd -> env -> car Rnum, (forall q, In q l -> @envext Rnum (h q)) ->
     @sumc Rnum d cs (fun e' => @bigprod Rnum _ l (fun q => h q e')) e = @sumc Rnum d (contracted sC (map (fpair rnd) l)) (fun e' => @bigprod Rnum _ l (fun q => h q e')) e).
  { intros h Hh. apply (sumc_perm Rnum_ring); auto; [|apply Permutation_sym; auto].
    intros e1 e2 H12. apply bigprod_ext. intros q Hq. apply Hh; auto. }
  rewrite (EP (fg rnd)) by (intros; apply Hx; auto). rewrite (EP (fG rnd)) by (intros; apply Hx; auto).
  rewrite <- (ksum_perm _ _ (Permutation_map d Hp)).
  set (cs' := contracted sC (map (fpair rnd) l)) in *.
  change (rel u (S (ksum (map (fk rnd) l) + length l + ksum (map d cs')))
    (rnd (c * @sumc N d cs' (fun e' => @bigprod N _ (map (fpair rnd) l) (fun p => at_ (fst p) (map e' (snd p)))) e))
    (c * @sumc Rnum d cs' (fun e' => @bigprod Rnum _ l (fun q => fg rnd q e')) e)
    (Rabs c * @sumc Rnum d cs' (fun e' => @bigprod Rnum _ l (fun q => fG rnd q e')) e)).
  apply (rel_rnd rnd u RE).
  replace (ksum (map (fk rnd) l) + length l + ksum (map d cs'))%nat with (0 + (ksum (map (fk rnd) l) + length l + ksum (map d cs')))%nat by lia.
  apply rel_mult; [apply rel_refl|].
  apply (rel_sumc rnd u RE). intros e' H1 H2. rewrite bigprod_map. apply (rel_bigprod rnd u RE).
  intros q Hq. destruct (Hl q Hq) as (_ & _ & E'). cbn [fpair fst snd]. apply E'.
  intros ch Hcq. destruct (in_dec Z.eq_dec ch cs') as [|n]; auto. rewrite H1 by auto.
  apply He. destruct (in_dec Z.eq_dec ch sC); auto. exfalso. apply n. apply contracted_spec. split; auto.
  apply in_flat_map. exists (fpair rnd q). split; auto. apply in_map. auto.
Qed.

(** ** norm2 *)
Lemma sqrt_rel g x y : 0 <= y -> 0 <= g -> Rabs (x - y) <= g * y -> Rabs (sqrt x - sqrt y) <= g * sqrt y.
Proof.
  intros Hy Hg H. destruct (Req_dec y 0) as [->|Hy0].
  - rewrite Rmult_0_r, Rminus_0_r in H. assert (x = 0) as -> by (destruct (Req_dec x 0); auto; exfalso; pose proof (Rabs_pos_lt x); lra).
    rewrite sqrt_0, Rminus_0_r, Rabs_R0. lra.
  - assert (Hs : 0 < sqrt y) by (apply sqrt_lt_R0; lra). pose proof (sqrt_sqrt y Hy) as Q.
    destruct (Rle_lt_dec 0 x) as [Hx|Hx].
    + pose proof (sqrt_pos x) as Hsx. pose proof (sqrt_sqrt x Hx) as Qx.
      rewrite <- Q, <- Qx in H. set (a := sqrt x) in *. set (b := sqrt y) in *. clearbody a b.
      replace (a * a - b * b) with ((a - b) * (a + b)) in H by ring. rewrite Rabs_mult in H. rewrite (Rabs_pos_eq (a + b)) in H by lra.
      apply (Rmult_le_reg_r (a + b)); [lra|]. eapply Rle_trans; [exact H|].
      assert (0 <= g * b * a) by (repeat apply Rmult_le_pos; lra). lra.
    + rewrite (sqrt_neg_0 x) by lra. rewrite Rminus_0_l, Rabs_Ropp, Rabs_pos_eq by lra.
      assert (1 <= g). { rewrite Rabs_left in H by lra. apply (Rmult_le_reg_r y); lra. }
      pose proof (Rmult_le_compat_r (sqrt y) 1 g ltac:(lra) H0). lra.
Qed.
Lemma norm2_rounded (T : tensor N) : Rabs (norm2 T - @norm2 Rnum (reals T)) <= gam u (length (data T) + 2) * @norm2 Rnum (reals T).
Proof.
  set (n := length (data T)).
  assert (H : rel u (1 + n) (@bigsum N _ (data T) (fun x => @nmul N x x)) (@bigsum Rnum _ (data T) (fun x => @nmul Rnum x x)) (@bigsum Rnum _ (data T) (fun x => @nmul Rnum x x))).
  { apply (rel_bigsum rnd u RE). intros x _. change (rel u 1 (rnd (x * x)) (x * x) (x * x)). apply (rel_rnd rnd u RE).
    apply rel_const. rewrite Rabs_mult. pose proof (Rabs_right (x*x)) as E. rewrite Rabs_mult in E. rewrite E; [lra|]. apply Rle_ge, Rle_0_sqr. }
  change (norm2 T) with (rnd (sqrt (@bigsum N _ (data T) (fun x => @nmul N x x)))).
  change (@norm2 Rnum (reals T)) with (sqrt (@bigsum Rnum _ (data T) (fun x => @nmul Rnum x x))).
  pose proof (rel_Y _ _ _ _ _ H) as HY. destruct H as [H _].
  set (s' := @bigsum N _ (data T) (fun x => @nmul N x x)) in *. set (s := @bigsum Rnum _ (data T) (fun x => @nmul Rnum x x)) in *.
  change (car Rnum) with R in *. change (car N) with R in *. clearbody s s'.
  assert (K : rel u (1 + n) (sqrt s') (sqrt s) (sqrt s)).
  { split; [|rewrite Rabs_pos_eq; [lra|apply sqrt_pos]]. apply sqrt_rel; auto. apply gam_pos; auto. }
  apply (rel_rnd rnd u RE) in K. replace (S (1 + n)) with (n + 2)%nat in K by lia. apply K.
Qed.

(** ** the residual *)
Lemma diffnorm_rounded (V : tensor N) W rk : (2 <= order V <= 19)%nat -> factors_ok V W rk ->
  exists r, diffnorm V W (lbuf (order V)) = Ok r /\
    Rabs (r - @resid_norm Rnum (reals V) (map reals W) rk)
      <= gam u (length (data V) + 2) * @resid_norm Rnum (reals V) (map reals W) rk
         + gam u (length (data V) + 3 * (order V - 1) + rk + 5) * mass_norm V W rk.
Proof.
  intros Ho HW. assert (HWc := factors_cols V W rk HW). destruct HW as (HwV & HL & HWm). unfold diffnorm.
  destruct (build_V_rounded rnd u RE W rk (order V)) as (Bv & EB & HwB & HlB & HBx); [lia|auto|intros m Hm; apply HWc; lia|lia|].
  rewrite EB. cbn [bind]. rewrite lbuf_take. cbn [bind].
  assert (Elr : map nrow W = lens V).
  { apply nth_ext with (d:=0%nat) (d':=0%nat). { rewrite map_length. auto. }
    rewrite map_length, HL. intros n Hn. rewrite (nth_map_lt _ _ _ (@tnil N)) by lia. fold (fac W n).
    apply (is_mat_nrow _ _ rk). apply HWm; auto. }
  rewrite Elr in HlB, HBx.
  assert (Eo : order Bv = order V) by (unfold order; rewrite HlB; auto).
  rewrite Eo, lbuf_take. cbn [bind].
  set (sV := letters chr (order V)). set (d := dV (lens V) ch_star rk).
  set (k := (3 * (order V - 1) + rk)%nat) in *.
  assert (Hlet : lens V = map d sV) by (apply (PRndDT.DT_letters rnd V rk); lia).
  assert (Hnd : NoDup sV) by (apply letters_nodup; apply (PRndDT.DT_inj rnd V); lia).
  destruct (@assign_rep N d false V sV [mkTerm n1 [(V, sV)]; mkTerm (- n1)%num [(Bv, sV)]]) as (D & E & (D1 & D2 & D3)); auto.
  { intros t [<-|[<-|[]]] p [<-|[]]; cbn [fst snd]; auto. rewrite HlB. auto. }
  rewrite E. cbn [bind]. exists (norm2 D). split; [reflexivity|].
  (* the entries *)
  assert (HD : forall x, In x (all_idx (lens V)) -> rel u (k + 3) (at_ D x) (at_ V x - @cp_at Rnum (map reals W) rk x) (Rabs (at_ V x) + @cp_at Rnum (map absols W) rk x)).
  { intros x Hx. apply all_idx_in in Hx. pose proof (HBx x Hx) as HB. rewrite Hlet in Hx. destruct (inb_env d sV x Hnd Hx) as (e & <- & He).
    rewrite D3 by auto. cbn [tsval fold_left]. set (x := map e sV) in *.
    replace (k + 3)%nat with (S (k + 2)) by lia. apply (rel_rnd rnd u RE).
    unfold PTensor.tval. cbn [coef facs]. rewrite !contracted_self. cbn [sumc bigprod fold_right fst snd]. fold x.
    change (rel u (k + 2) (rnd (1 * rnd (at_ V x * 1)) + rnd (- (1) * rnd (at_ Bv x * 1))) (at_ V x - @cp_at Rnum (map reals W) rk x) (Rabs (at_ V x) + @cp_at Rnum (map absols W) rk x)).
    rewrite Rmult_1_l, !Rmult_1_r. apply rel_plus.
    - apply rel_mono with 2%nat; [auto|lia|]. do 2 apply (rel_rnd rnd u RE). apply rel_refl.
    - replace (k + 2)%nat with (S (S k)) by lia. apply (rel_rnd rnd u RE).
      assert (Hneg : forall k x y Y, rel u k x y Y -> rel u k (- (1) * x) (- y) Y).
      { clear. intros k x y Y [H1 H2]. split; [|rewrite Rabs_Ropp; auto]. replace (- (1) * x - - y) with (- (x - y)) by ring. rewrite Rabs_Ropp. auto. }
      apply Hneg. apply (rel_rnd rnd u RE). auto. }
  pose proof (norm2_rounded D) as HN. 
  assert (HlD : lens D = lens V) by (rewrite D2; auto).
  assert (El : length (data D) = length (data V)) by (rewrite D1, HwV, HlD; auto). rewrite El in HN. set (n := length (data V)) in *.
  assert (E1 : @norm2 Rnum (reals D) = nrm (all_idx (lens V)) (fun x => at_ D x)).
  { rewrite norm2_nrm; [cbn [reals lens]; rewrite HlD; reflexivity|exact D1]. }
  assert (E2 : @resid_norm Rnum (reals V) (map reals W) rk = nrm (all_idx (lens V)) (fun x => at_ V x - @cp_at Rnum (map reals W) rk x)).
  { unfold resid_norm, msub. rewrite norm2_tabulate. cbn [reals lens]. apply nrm_ext. intros x Hx. 
    cbn [nsub Rnum]. rewrite reals_at. f_equal. unfold cp_full. rewrite map_map. 
    assert (Em : map (fun t : tensor N => nrow (reals t)) W = lens V) by (rewrite <- Elr; apply map_ext; reflexivity).
    rewrite Em. apply (@at_tabulate Rnum). apply all_idx_in. auto. }
  assert (E3 : mass_norm V W rk = nrm (all_idx (lens V)) (fun x => Rabs (at_ V x) + @cp_at Rnum (map absols W) rk x)).
  { unfold mass_norm. apply norm2_tabulate. }
  rewrite E1 in HN. rewrite E2, E3.
  set (L := all_idx (lens V)) in *. set (f := fun x => at_ V x - @cp_at Rnum (map reals W) rk x) in *.
  set (A := fun x => Rabs (at_ V x) + @cp_at Rnum (map absols W) rk x) in *. set (F := fun x : list nat => at_ D x) in *.
  assert (HF : forall x, In x L -> rel u (k + 3) (F x) (f x) (A x)) by exact HD.
  set (r := @norm2 N D) in *. replace (n + 3 * (order V - 1) + rk + 5)%nat with ((n + 2) + (k + 3))%nat by (unfold k; lia).
  clearbody F f A L r n k. change (car N) with R in *. change (car Rnum) with R in *. clear - HF HN Hu.
  apply (two_errors u (n + 2) (k + 3) r (nrm L F) (nrm L f) (nrm L A)); auto.
  - apply nrm_nonneg.
  - apply nrm_close; [apply gam_pos; auto|]. intros x Hx. apply HF. auto.
Qed.
End Rnd.
