(** Rounding errors: one CTF statement in rounded arithmetic *)
From Coq Require Import List ZArith QArith Reals Lra Lia Bool Arith Permutation.
From Verif Require Import Base Num NumR Tensor Spec Spec27 PBase PTensor PSum PMttkrp.
Import ListNotations.
Local Open Scope R_scope.

(** ** relative errors *)
Lemma pow1u_ge1 u k : 0 <= u -> 1 <= (1 + u) ^ k.
Proof. intros H. apply pow_R1_Rle. lra. Qed.
Lemma gam_pos u k : 0 <= u -> 0 <= gam u k.
Proof. intros H. unfold gam. pose proof (pow1u_ge1 u k H). lra. Qed.
Lemma gam_mono u k l : 0 <= u -> (k <= l)%nat -> gam u k <= gam u l.
Proof. intros H Hk. unfold gam. pose proof (Rle_pow (1 + u) k l ltac:(lra) Hk). lra. Qed.
Lemma gam_0 u : gam u 0 = 0.
Proof. unfold gam. simpl. lra. Qed.

(** x computed, y exact, Y a bound of |y| made of absolute values, k roundings *)
Definition rel (u : R) (k : nat) (x y Y : R) : Prop := Rabs (x - y) <= gam u k * Y /\ Rabs y <= Y.

Lemma rel_Y u k x y Y : rel u k x y Y -> 0 <= Y.
Proof. intros (_ & H). pose proof (Rabs_pos y). lra. Qed.
Lemma rel_mono u k l x y Y : 0 <= u -> (k <= l)%nat -> rel u k x y Y -> rel u l x y Y.
Proof.
  intros Hu Hk H. pose proof (rel_Y _ _ _ _ _ H) as HY. destruct H as [H1 H2]. split; auto.
  pose proof (gam_mono u k l Hu Hk). pose proof (Rmult_le_compat_r Y _ _ HY H). lra.
Qed.
Lemma rel_refl u x : rel u 0 x x (Rabs x).
Proof. split; [|lra]. rewrite gam_0. replace (x - x) with 0 by lra. rewrite Rabs_R0. lra. Qed.
Lemma rel_const u (x : R) Y : Rabs x <= Y -> rel u 0 x x Y.
Proof. intros H. split; [|lra]. rewrite gam_0. replace (x - x) with 0 by lra. rewrite Rabs_R0. lra. Qed.
Lemma rel_abs u k x y Y : rel u k x y Y -> Rabs x <= (1 + u) ^ k * Y.
Proof.
  intros (H1 & H2). unfold gam in H1. pose proof (Rabs_triang (x - y) y) as H. replace (x - y + y) with x in H by lra. lra.
Qed.

Lemma Rmult_3 (a b c : R) : a * (b * c) = a * c * b.
Proof. ring. Qed.

Section Rnd.
Context (rnd : R -> R) (u : R) (RE : rel_err rnd u).
Let Hu : 0 <= u := proj1 RE.
Let Hr : forall x, Rabs (rnd x - x) <= u * Rabs x := proj2 RE.
Notation N := (Fl rnd).

(** one more rounding *)
Lemma rel_rnd k x y Y : rel u k x y Y -> rel u (S k) (rnd x) y Y.
Proof.
  intros H. pose proof (rel_abs _ _ _ _ _ H) as HA. pose proof (rel_Y _ _ _ _ _ H) as HY. destruct H as [H1 H2]. split; auto.
  pose proof (Hr x) as H3. pose proof (Rabs_triang (rnd x - x) (x - y)) as H. replace (rnd x - x + (x - y)) with (rnd x - y) in H by lra.
  pose proof (Rmult_le_compat_l u _ _ Hu HA) as H4. unfold gam in *. cbn [pow]. lra.
Qed.
Lemma rel_plus k x y Y x' y' Y' : rel u k x y Y -> rel u k x' y' Y' -> rel u k (x + x') (y + y') (Y + Y').
Proof.
  intros (H1 & H2) (H3 & H4). split.
  - pose proof (Rabs_triang (x - y) (x' - y')) as H. replace (x - y + (x' - y')) with (x + x' - (y + y')) in H by lra. lra.
  - pose proof (Rabs_triang y y'). lra.
Qed.
Lemma rel_mult k k' x y Y x' y' Y' : rel u k x y Y -> rel u k' x' y' Y' -> rel u (k + k') (x * x') (y * y') (Y * Y').
Proof.
  intros H H'. pose proof (rel_abs _ _ _ _ _ H) as HA. pose proof (rel_Y _ _ _ _ _ H) as HY. pose proof (rel_Y _ _ _ _ _ H') as HY'.
  destruct H as (H1 & H2), H' as (H3 & H4). split.
  - replace (x * x' - y * y') with (x * (x' - y') + (x - y) * y') by ring.
    pose proof (Rabs_triang (x * (x' - y')) ((x - y) * y')) as HT. rewrite !Rabs_mult in HT.
    pose proof (Rmult_le_compat _ _ _ _ (Rabs_pos x) (Rabs_pos (x' - y')) HA H3) as M1.
    pose proof (Rmult_le_compat _ _ _ _ (Rabs_pos (x - y)) (Rabs_pos y') H1 H4) as M2.
    unfold gam in *. rewrite pow_add. nra.
  - rewrite Rabs_mult. apply Rmult_le_compat; auto using Rabs_pos.
Qed.

(** ** sums and products *)
Lemma rel_bigsum {X} (l : list X) k (f : X -> car N) (g G : X -> car Rnum) :
  (forall x, In x l -> rel u k (f x) (g x) (G x)) ->
  rel u (k + length l) (@bigsum N X l f) (@bigsum Rnum X l g) (@bigsum Rnum X l G).
Proof.
  intros H. induction l as [|a l IH].
  - cbn. split; rewrite ?Rminus_0_r, Rabs_R0; lra.
  - cbn [bigsum fold_right length]. replace (k + S (length l))%nat with (S (k + length l)) by lia.
    apply rel_rnd. apply rel_plus.
    + apply rel_mono with k; [auto|lia|]. apply H. left; auto.
    + apply IH. intros; apply H; right; auto.
Qed.
Definition ksum (l : list nat) : nat := fold_right Nat.add 0%nat l.
Lemma rel_bigprod {X} (l : list X) (k : X -> nat) (f : X -> car N) (g G : X -> car Rnum) :
  (forall x, In x l -> rel u (k x) (f x) (g x) (G x)) ->
  rel u (ksum (map k l) + length l) (@bigprod N X l f) (@bigprod Rnum X l g) (@bigprod Rnum X l G).
Proof.
  intros H. induction l as [|a l IH].
  - cbn. split; [rewrite gam_0; replace (1 - 1) with 0 by lra; rewrite Rabs_R0; lra|rewrite Rabs_R1; lra].
  - cbn [bigprod fold_right length map ksum]. fold (ksum (map k l)).
    replace (k a + ksum (map k l) + S (length l))%nat with (S (k a + (ksum (map k l) + length l))) by lia.
    apply rel_rnd. apply rel_mult; [apply H; left; auto|]. apply IH. intros; apply H; right; auto.
Qed.
Lemma rel_sumc d cs k (f : env -> car N) (g G : env -> car Rnum) e :
  (forall e', (forall c, ~ In c cs -> e' c = e c) -> (forall c, In c cs -> (e' c < d c)%nat) -> rel u k (f e') (g e') (G e')) ->
  rel u (k + ksum (map d cs)) (@sumc N d cs f e) (@sumc Rnum d cs g e) (@sumc Rnum d cs G e).
Proof.
  revert e. induction cs as [|c cs IH]; intros e H; cbn [sumc map ksum fold_right].
  - rewrite Nat.add_0_r. apply H; auto. intros c [].
  - fold (ksum (map d cs)). replace (k + (d c + ksum (map d cs)))%nat with (k + ksum (map d cs) + length (seq 0 (d c)))%nat by (rewrite seq_length; lia).
    apply rel_bigsum. intros i Hi. apply in_seq in Hi. apply IH. intros e' H1 H2. apply H.
    + intros x Hx. rewrite H1 by (intros ?; apply Hx; right; auto). apply upd_other. intros ->. apply Hx; left; auto.
    + intros x [<-|Hx]; [|auto]. destruct (in_dec Z.eq_dec c cs); [auto|]. rewrite H1 by auto. rewrite upd_same. lia.
Qed.
Lemma ksum_perm l l' : Permutation l l' -> ksum l = ksum l'.
Proof. induction 1; cbn; try congruence; try lia. fold (ksum l) (ksum l'). lia. Qed.

(** ** approximate representation *)
Definition arep (d : Z -> nat) (T : tensor N) (s : str) (k : nat) (g G : env -> car Rnum) : Prop :=
  wf T /\ lens T = map d s /\ forall e, inr d s e -> rel u k (at_ T (map e s)) (g e) (G e).
Lemma arep_order d T s k g G : arep d T s k g G -> order T = length s.
Proof. intros (_ & H & _). unfold order. rewrite H. apply map_length. Qed.
Lemma arep_ext d T s k g G g' G' : arep d T s k g G -> (forall e, inr d s e -> g e = g' e /\ G e = G' e) -> arep d T s k g' G'.
Proof. intros (H1 & H2 & H3) H. split; [|split]; auto. intros e He. destruct (H e He) as [<- <-]. auto. Qed.
Lemma arep_mono d T s k l g G : (k <= l)%nat -> arep d T s k g G -> arep d T s l g G.
Proof. intros Hk (H1 & H2 & H3). split; [|split]; auto. intros e He. eapply rel_mono; eauto. Qed.

Record fac_ := mkFac { ft : tensor N; fs : str; fk : nat; fg : env -> car Rnum; fG : env -> car Rnum }.
Definition fpair (q : fac_) := (ft q, fs q).

Theorem contract_arep d C sC (l : list fac_) cs :
  NoDup sC -> lens C = map d sC -> (forall q, In q l -> arep d (ft q) (fs q) (fk q) (fg q) (fG q)) -> NoDup cs ->
  (forall c, In c cs <-> In c (flat_map snd (map fpair l)) /\ ~ In c sC) ->
  (forall q, In q l -> @envext Rnum (fg q) /\ @envext Rnum (fG q)) ->
  exists B, assign false C sC [prodt (map fpair l)] = Ok B /\
    arep d B sC (S (ksum (map fk l) + length l + ksum (map d cs)))
      (fun e => @sumc Rnum d cs (fun e' => @bigprod Rnum _ l (fun q => fg q e')) e)
      (fun e => @sumc Rnum d cs (fun e' => @bigprod Rnum _ l (fun q => fG q e')) e).
Proof.
  intros Hs HC Hl Hn Hc Hx.
  assert (Hfit : facs_fit d (map fpair l)).
  { intros p Hp. apply in_map_iff in Hp as (q & <- & Hq). destruct (Hl q Hq) as (_ & E & _). auto. }
  destruct (assign_rep d false C sC [prodt (map fpair l)] Hs HC) as (B & E & (R1 & R2 & R3)).
  - intros t [<-|[]]. exact Hfit.
  - exists B. split; auto. split; [auto|split; [auto|]]. intros e He. rewrite R3 by auto. cbn [tsval fold_left]. unfold tval. cbn [prodt coef facs].
    assert (Hp : Permutation (contracted sC (map fpair l)) cs).
    { apply NoDup_Permutation; auto; [apply NoDup_nodup|]. intros c. rewrite contracted_spec. symmetry. apply Hc. }
    assert (EP : forall h : fac_ -> env -> car Rnum, (forall q, In q l -> @envext Rnum (h q)) ->
       @sumc Rnum d cs (fun e' => @bigprod Rnum _ l (fun q => h q e')) e = @sumc Rnum d (contracted sC (map fpair l)) (fun e' => @bigprod Rnum _ l (fun q => h q e')) e).
    { intros h Hh. apply (sumc_perm Rnum_ring); auto; [|apply Permutation_sym; auto].
      intros e1 e2 H12. apply bigprod_ext. intros q Hq. apply Hh; auto. }
    rewrite (EP fg) by (intros; apply Hx; auto). rewrite (EP fG) by (intros; apply Hx; auto).
    rewrite <- (ksum_perm _ _ (Permutation_map d Hp)).
    change (rel u (S (ksum (map fk l) + length l + ksum (map d (contracted sC (map fpair l)))))
      (rnd (1 * @sumc N d (contracted sC (map fpair l)) (fun e' => @bigprod N _ (map fpair l) (fun p => at_ (fst p) (map e' (snd p)))) e))
      (@sumc Rnum d (contracted sC (map fpair l)) (fun e' => @bigprod Rnum _ l (fun q => fg q e')) e)
      (@sumc Rnum d (contracted sC (map fpair l)) (fun e' => @bigprod Rnum _ l (fun q => fG q e')) e)).
    rewrite Rmult_1_l. apply rel_rnd. apply rel_sumc. intros e' H1 H2. rewrite bigprod_map. apply rel_bigprod.
    intros q Hq. destruct (Hl q Hq) as (_ & _ & E'). cbn [fpair fst snd]. apply E'.
    intros c Hcq. destruct (in_dec Z.eq_dec c (contracted sC (map fpair l))) as [|n]; auto. rewrite H1 by auto.
    apply He. destruct (in_dec Z.eq_dec c sC); auto. exfalso. apply n. apply contracted_spec. split; auto.
    apply in_flat_map. exists (fpair q). split; auto. apply in_map. auto.
Qed.

(** ** tensors and their absolute values *)
Lemma reals_at (T : tensor N) idx : @at_ Rnum (reals T) idx = @at_ N T idx.
Proof. reflexivity. Qed.
Lemma absols_at (T : tensor N) idx : @at_ Rnum (absols T) idx = Rabs (@at_ N T idx).
Proof.
  unfold at_, absols. cbn [lens data]. change (@n0 Rnum) with 0. change (@n0 N) with 0. rewrite <- Rabs_R0 at 1. apply (map_nth Rabs).
Qed.
Lemma rel_el (T : tensor N) i j : rel u 0 (el T i j) (@el Rnum (reals T) i j) (@el Rnum (absols T) i j).
Proof. unfold el. rewrite reals_at, absols_at. apply rel_refl. Qed.
Lemma rel_at (T : tensor N) idx : rel u 0 (at_ T idx) (@at_ Rnum (reals T) idx) (@at_ Rnum (absols T) idx).
Proof. rewrite reals_at, absols_at. apply rel_refl. Qed.

(** ** one contraction step *)
Section Letters.
Context (d : Z -> nat) (ltr : nat -> Z) (rk : Z) (ord : nat).
Hypothesis ltr_inj : forall i j, (i < ord)%nat -> (j < ord)%nat -> ltr i = ltr j -> i = j.
Hypothesis rk_fresh : forall i, (i < ord)%nat -> ltr i <> rk.
Definition PMr (V : tensor N) (W : nat -> tensor N) := @PM Rnum d ltr rk ord (reals V) (fun m => reals (W m)).
Definition PMa (V : tensor N) (W : nat -> tensor N) := @PM Rnum d ltr rk ord (absols V) (fun m => absols (W m)).
(** the number of roundings after contracting the modes ms *)
Definition kms (ms : list nat) : nat := ksum (map (fun m => d (ltr m) + 3)%nat ms).

Lemma pm_astep V W ms m (A : tensor N) s sC (C : tensor N) :
  arep d A s (kms ms) (PMr V W ms) (PMa V W ms) ->
  (m < ord)%nat -> ~ In m ms -> (forall m, In m ms -> (m < ord)%nat) ->
  is_mat (W m) (d (ltr m)) (d rk) ->
  In (ltr m) s -> (forall c, In c s -> c = rk \/ In c (letters ltr ord)) ->
  NoDup sC -> (forall c, In c sC <-> (In c s /\ c <> ltr m) \/ c = rk) ->
  lens C = map d sC ->
  exists B, assign false C sC [prodt [(A, s); (W m, [ltr m; rk])]] = Ok B /\
            arep d B sC (kms (m :: ms)) (PMr V W (m :: ms)) (PMa V W (m :: ms)).
Proof.
  intros HA Hm Hn Hms HW Hin Hs HsC HC HlC.
  set (q1 := mkFac A s (kms ms) (PMr V W ms) (PMa V W ms)).
  set (q2 := mkFac (W m) [ltr m; rk] 0 (fun e => @el Rnum (reals (W m)) (e (ltr m)) (e rk)) (fun e => @el Rnum (absols (W m)) (e (ltr m)) (e rk))).
  destruct (contract_arep d C sC [q1; q2] [ltr m]) as (B & E & R).
  - auto.
  - auto.
  - intros q [<-|[<-|[]]]; [exact HA|]. cbn. destruct HW as [H1 H2]. split; [auto|split; [auto|]]. intros e He. apply rel_el.
  - repeat constructor. auto.
  - intros c. cbn. rewrite in_app_iff, HC. cbn. split.
    + intros [<-|[]]. split; auto. intros [[_ H]|H]; [auto|]. apply (rk_fresh m); auto.
    + intros [H H']. left. destruct (Z.eq_dec (ltr m) c) as [|Hne]; auto. exfalso. apply H'.
      destruct H as [H|[H|[H|[]]]]; [left; auto|congruence|right; auto].
  - intros q [<-|[<-|[]]]; subst q1 q2; cbn [fg fG]; split; [apply (@PM_env Rnum)|apply (@PM_env Rnum)|apply (@el_env Rnum)|apply (@el_env Rnum)].
  - exists B. split; [exact E|].
    apply (arep_mono _ _ _ (S (ksum (map fk [q1; q2]) + length [q1; q2] + ksum (map d [ltr m])))).
    { subst q1 q2. unfold kms. cbn [map ksum fold_right fk length]. fold (ksum (map (fun m0 : nat => (d (ltr m0) + 3)%nat) ms)). lia. }
    eapply arep_ext; [exact R|]. intros e He. unfold PMr, PMa.
    split; rewrite (PM_cons Rnum_ring) by auto; cbn [sumc bigprod fold_right]; apply bigsum_ext; intros i Hi; subst q1 q2; cbn [fg fG];
      rewrite upd_same, upd_other by (intros E'; apply (rk_fresh m); auto); unfold PMr, PMa; change (@nmul Rnum) with Rmult; change (@n1 Rnum) with 1; rewrite Rmult_1_r; reflexivity.
Qed.
Lemma arep_start (V : tensor N) W : wf V -> lens V = map d (letters ltr ord) -> arep d V (letters ltr ord) (kms []) (PMr V W []) (PMa V W []).
Proof.
  intros H1 H2. split; [auto|split; [auto|]]. intros e He. unfold PMr, PMa. rewrite !(PM_nil Rnum_ring). apply rel_at.
Qed.
End Letters.
End Rnd.
