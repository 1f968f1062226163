(** The sweeps and drivers of als_CP.cxx over an arbitrary number type: no failure, shapes kept. *)
From Coq Require Import List ZArith QArith Lia Bool Arith.
From Verif Require Import Base Num Tensor Spec Spec2 MCommon MCP PBase PTensor PSum PMat PMatAlg PSolve PTree PDT PDTSweep PALS PGrad PBuildV PDrivers
  PPP PPPSweep PPPDriver PPar PPar2.
Import ListNotations.
Local Close Scope Q_scope.

Lemma osim_run {X Y} (R : X -> Y -> Prop) x y b : osim R x y -> y = Ok b -> exists a, x = Ok a /\ R a b.
Proof. intros H E. apply H; auto. Qed.
Lemma for_iter_safe {St} (P : St -> Prop) body : (forall it s, P s -> exists f s', body it s = Ok (f, s') /\ P s') ->
  forall n it s, P s -> exists f it' s', for_iter n it body s = Ok (f, it', s') /\ P s'.
Proof.
  intros Hb. induction n; intros it s Hs; cbn [for_iter]; [eauto 6|].
  destruct (Hb it s Hs) as (f & s' & E & Hs'). rewrite E. cbn [bind]. destruct f; eauto 6.
Qed.

Section A.
Context {N : num} (LA : lapack N) (Hsh : svd_shaped (svd LA)).
Context (V : tensor N) (R : nat).
Let o := order V.
Notation RU := Unum_ring.
Notation U := (cp V).

Lemma nth_cp (W : list (tensor N)) m : (m < length W)%nat -> fac (map cp W) m = cp (fac W m).
Proof. intros H. unfold fac. rewrite (nth_map_lt _ _ _ tnil) by auto. reflexivity. Qed.
Lemma mats_sim W : mats_ok V W R -> lsim W (map cp W).
Proof.
  intros [HL HM]. assert (H : Forall (fun A => wf A) W).
  { apply Forall_forall. intros A HA. destruct (In_nth _ _ tnil HA) as (m & Hm & <-). apply (HM m). lia. }
  clear HL HM. induction H; cbn; constructor; auto. apply cp_sim; auto.
Qed.
Lemma mats_cp W : mats_ok V W R -> mats_ok U (map cp W) R.
Proof.
  intros [HL HM]. split; [rewrite map_length; exact HL|]. intros m Hm. change (order U) with (order V) in Hm. rewrite nth_cp by lia.
  destruct (HM m Hm) as [H1 H2]. split; [exact H1|]. apply (cp_sim _ H2).
Qed.
Lemma factors_mats' W : factors_ok V W R -> mats_ok V W R.
Proof. intros (H1 & H2 & H3). split; auto. Qed.
Lemma factors_V W : factors_ok V W R -> tsw V U.
Proof. intros (H1 & _). apply cp_sim; auto. Qed.
Lemma factors_cp W : factors_ok V W R -> factors_ok U (map cp W) R.
Proof. intros HW. split; [apply (factors_V W HW)|]. apply mats_cp, factors_mats'; auto. Qed.
Lemma mats_back W W' : lsim W W' -> mats_ok U W' R -> mats_ok V W R.
Proof.
  intros Hs [HL HM]. assert (Hl := lsim_length _ _ Hs). split; [rewrite Hl; exact HL|]. intros m Hm.
  specialize (HM m Hm). change (lens U) with (lens V) in HM.
  assert (H : forall k, (k < length W)%nat -> tsw (fac W k) (fac W' k)).
  { clear -Hs. induction Hs; intros [|k] Hk; cbn in *; try lia; auto. apply IHHs. lia. }
  change (order U) with (order V) in HL. destruct (H m) as (H1 & H2 & H3); [lia|]. split; auto. rewrite H1. apply HM.
Qed.
Lemma factors_back W W0 W' : factors_ok V W0 R -> lsim W W' -> factors_ok U W' R -> factors_ok V W R.
Proof. intros (H1 & _) Hs (_ & H2). split; auto. apply (mats_back W W' Hs H2). Qed.
Definition sq_ok (S : tensor N) : Prop := is_mat S R R.
Lemma sq_sim S : sq_ok S -> tsw S (cp S).
Proof. intros [_ H]. apply cp_sim; auto. Qed.
Lemma sq_back S (S' : tensor Unum) : tsw S S' -> lens S' = [R; R] -> sq_ok S.
Proof. intros (H1 & H2 & _) H. split; auto. rewrite H1; auto. Qed.
Lemma reg_sim S : sq_ok S -> tsw S (mscal (tt : Unum) (mid R)).
Proof. intros [H1 H2]. split; [exact H1|]. split; auto. apply tabulate_wf. Qed.

(** ** pieces *)
Lemma sumnorm_any (G : list (tensor N)) n : length G = n -> exists p, sumnorm n G = Ok p.
Proof.
  intros HL. unfold sumnorm. destruct (for_inv (fun _ (p : N) => True) (fun i p => g <- lget G i ;; Ok (nadd p (nmul (norm2 g) (norm2 g)))) 0 n n0) as (p & E & _); auto; [lia| |].
  - intros i p Hi _. rewrite (lget_ok G i tnil) by lia. cbn [bind]. eauto.
  - rewrite E. cbn [bind]. eauto.
Qed.
Lemma measure_any (clk : nat -> N) W G x : (2 <= o <= 19)%nat -> factors_ok V W R -> length G = o ->
  exists pn dn dt x', measure clk V W G (lbuf o) x = Ok (pn, dn, dt, x').
Proof.
  intros Ho HW HG. unfold measure, check_begin, wtime. fold o. destruct (sumnorm_any G o HG) as (p & E). rewrite E. cbn [bind].
  assert (Ed := diffnorm_ok RU (fun _ => tt) U (map cp W) R Ho (factors_cp W HW)).
  destruct (osim_run _ _ _ _ (diffnorm_sim V U W (map cp W) (lbuf o) (factors_V W HW) (mats_sim W (factors_mats' W HW))) Ed) as (dn & E2 & _).
  rewrite E2. cbn [bind]. unfold check_end, wtime. eauto 6.
Qed.
Lemma DT_sweep_any fuel parent sibling F regul W G S : tree_maps o parent sibling -> (o = 4 \/ 6 <= o)%nat -> (1 <= o <= 31)%nat -> (o < fuel)%nat ->
  factors_ok V W R -> mats_ok V F R -> mats_ok V G R -> sq_ok S -> sq_ok regul ->
  exists W' G' S', alsCP_DT_sweep LA fuel parent sibling V F regul W G S (lbuf o) = Ok (W', G', S', lbuf o) /\
    factors_ok V W' R /\ mats_ok V G' R /\ sq_ok S'.
Proof.
  intros Ht Ho Ho31 Hf HW HF HG HS HR.
  destruct (alsCP_DT_sweep_ok RU ULA U R ULA_shaped parent sibling fuel Ht Ho Ho31 Hf (map cp F) (map cp G) (map cp W) (cp S) tt) as (S2 & E & HS2);
    [apply factors_cp; auto|apply mats_cp; auto|apply mats_cp; auto|apply HS|].
  destruct (osim_run _ _ _ _ (DT_sweep_sim LA Hsh fuel parent sibling V U F (map cp F) regul (mscal (tt : Unum) (mid R)) W (map cp W) G (map cp G) S (cp S) (lbuf o)
    (factors_V W HW) (mats_sim F HF) (reg_sim _ HR) (mats_sim W (factors_mats' W HW)) (mats_sim G HG) (sq_sim S HS)) E) as ([[[W' G'] S'] q] & E1 & [[[H1 H2] H3] H4]).
  cbn [fst snd] in *. subst q. exists W', G', S'. split; [exact E1|]. split; [|split].
  - apply (factors_back W' W _ HW H1), (rescaled_factors ULA), sweep_factors; auto using Unum_ring, ULA_shaped, factors_cp.
  - apply (mats_back _ _ H2). apply (als_grads_mats RU ULA U R ULA_shaped tt (map cp F)), factors_cp; auto.
  - apply (sq_back _ _ H3 HS2).
Qed.
Lemma DT_sub_sweep_any fuel parent sibling (l : N) regul W G S : tree_maps o parent sibling -> (o = 4 \/ 6 <= o)%nat -> (1 <= o <= 31)%nat -> (o < fuel)%nat ->
  factors_ok V W R -> mats_ok V G R -> sq_ok S -> sq_ok regul ->
  exists W' G' S', DT_sub_sweep LA fuel parent sibling V l regul W G S (lbuf o) = Ok (W', G', S', lbuf o) /\
    factors_ok V W' R /\ mats_ok V G' R /\ sq_ok S'.
Proof.
  intros Ht Ho Ho31 Hf HW HG HS HR.
  destruct (DT_sub_sweep_ok RU ULA U R ULA_shaped parent sibling fuel Ht Ho Ho31 Hf (zmats U R) (map cp G) (map cp W) (cp S) tt) as (S2 & E & HS2);
    [discriminate|apply factors_cp; auto|intros; destruct (el _ _ _); reflexivity|apply mats_cp; auto|apply HS|].
  destruct (osim_run _ _ _ _ (DT_sub_sweep_sim LA Hsh fuel parent sibling V U l tt regul (mscal (tt : Unum) (mid R)) W (map cp W) G (map cp G) S (cp S) (lbuf o)
    (factors_V W HW) (reg_sim _ HR) (mats_sim W (factors_mats' W HW)) (mats_sim G HG) (sq_sim S HS)) E) as ([[[W' G'] S'] q] & E1 & [[[H1 H2] H3] H4]).
  cbn [fst snd] in *. subst q. exists W', G', S'. split; [exact E1|]. split; [|split].
  - apply (factors_back W' W _ HW H1), (rescaled_factors ULA), sweep_factors; auto using Unum_ring, ULA_shaped, factors_cp.
  - apply (mats_back _ _ H2). apply (als_grads_mats RU ULA U R ULA_shaped tt (zmats U R)), factors_cp; auto.
  - apply (sq_back _ _ H3 HS2).
Qed.
Lemma alsCP_sweep_any F W S s : (2 <= o <= 10)%nat -> lens V = repeat s o -> factors_ok V W R -> mats_ok V F R -> sq_ok S ->
  exists W' S', alsCP_sweep LA V F (W, S, lbuf o) = Ok (W', S', lbuf o) /\ factors_ok V W' R /\ sq_ok S'.
Proof.
  intros Ho Hc HW HF HS.
  destruct (alsCP_sweep_ok RU ULA U R ULA_shaped (map cp F) (map cp W) (cp S) s) as (S2 & E & HS2);
    [auto|auto|apply factors_cp; auto|apply mats_cp; auto|apply HS|].
  destruct (osim_run _ _ _ _ (alsCP_sweep_sim LA Hsh V U F (map cp F) W (map cp W) S (cp S) (lbuf o)
    (factors_V W HW) (mats_sim F HF) (mats_sim W (factors_mats' W HW)) (sq_sim S HS)) E) as ([[W' S'] q] & E1 & [[H1 H2] H3]).
  cbn [fst snd] in *. subst q. exists W', S'. split; [exact E1|]. split.
  - apply (factors_back W' W _ HW H1), sweep_factors; auto using Unum_ring, ULA_shaped, factors_cp.
  - apply (sq_back _ _ H2 HS2).
Qed.
Lemma Normalize_any W : factors_ok V W R -> exists W', Normalize W o = Ok W' /\ factors_ok V W' R.
Proof.
  intros HW. assert (E := Normalize_rescaled RU U R (map cp W) (factors_cp W HW)).
  destruct (osim_run _ _ _ _ (Normalize_sim W (map cp W) o (mats_sim W (factors_mats' W HW))) E) as (W' & E1 & H1).
  exists W'. split; auto. apply (factors_back W' W _ HW H1), (rescaled_factors ULA), factors_cp; auto.
Qed.
Lemma gradient_any W G s : (2 <= o <= 10)%nat -> lens V = repeat s o -> factors_ok V W R -> mats_ok V G R ->
  exists G', gradient_CP V W G = Ok G' /\ mats_ok V G' R.
Proof.
  intros Ho Hc HW HG. assert (HG2 := mats_cp G HG). assert (E : gradient_CP U (map cp W) (map cp G) = Ok (map (grad_spec U (map cp W) R) (seq 0 o))).
  { apply (gradient_CP_ok RU U (map cp W) (map cp G) R s); auto; [apply factors_cp; auto|apply HG2|]. intros m Hm. destruct HG2 as [_ H].
    destruct (H m Hm) as [H2 _]. rewrite H2. change (lens U) with (lens V). rewrite Hc. rewrite (nth_rep s) by exact Hm. reflexivity. }
  destruct (osim_run _ _ _ _ (gradient_CP_sim V U W (map cp W) G (map cp G) (factors_V W HW) (mats_sim W (factors_mats' W HW)) (mats_sim G HG)) E) as (G' & E1 & H1).
  exists G'. split; auto. apply (mats_back _ _ H1). split; [rewrite map_length, seq_length; reflexivity|]. intros m Hm. change (order U) with o in Hm.
  unfold fac. rewrite (nth_map_lt _ _ _ 0%nat) by (rewrite seq_length; auto). rewrite nth_seq by auto. cbn [Nat.add].
  apply msub_mat', (mmul_mat _ _ _ R R); [apply (factors_cp W HW); auto|apply hgram_mat].
Qed.
Lemma mk_regul_any (l : N) : exists r, mk_regul R l = Ok r /\ sq_ok r.
Proof.
  assert (E := @mk_regul_ok Unum RU R tt). destruct (osim_run _ _ _ _ (@mk_regul_sim N Unum R l tt) E) as (r & E1 & H1 & H2 & _).
  exists r. split; auto. split; auto.
Qed.
End A.
