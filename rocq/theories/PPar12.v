(** The tensor generators over an arbitrary number type: no failure, shapes as expected. *)
From Coq Require Import String Ascii.
From Coq Require Import List ZArith QArith Lia Bool Arith Permutation.
From Verif Require Import Base Num Tensor Spec Spec5 MCommon MCP MGen MRun PBase PTensor PBuildV PGen PGen2 PDrivers PPar PPar2 PPar3 PRun2.
Import ListNotations.
Local Close Scope Q_scope.

Section S.
Context {N1 N2 : num}.
Notation T1 := (tensor N1).
Notation T2 := (tensor N2).
Lemma write_sim (ps : list (nat * N1)) (ps' : list (nat * N2)) (T : T1) (T' : T2) : map fst ps = map fst ps' -> tsw T T' -> osim tsw (write T ps) (write T' ps').
Proof.
  revert ps' T T'. induction ps as [|[g v] ps IH]; intros [|[g' v'] ps'] T T' E HT; try discriminate; [apply osim_ok; exact HT|].
  cbn [map fst] in E. injection E as <- E. cbn [write].
  assert (L : length (data T) = length (data T')) by (destruct HT as (H1 & H2 & H3); unfold wf in *; rewrite H2, H3, H1; reflexivity).
  rewrite L. destruct (Nat.ltb g _); [|apply osim_err]. apply IH; [exact E|]. destruct HT as (H1 & H2 & H3). split; [exact H1|].
  unfold wf in *. cbn [lens data]. rewrite !lset_length. auto.
Qed.
Lemma mf {A B C} (f : A -> B * C) (l : list A) : map fst (map f l) = map (fun x => fst (f x)) l.
Proof. apply map_map. Qed.
Lemma ident_step_sim s (I : T1) (I' : T2) i A B : tsw I I' -> tsw A B -> osim tsw (ident_step s I i A) (ident_step s I' i B).
Proof. intros HI HA. unfold ident_step. repeat pleaf. Qed.
Lemma identity_sim Nm s : osim tsw (@identity_tensor N1 Nm s) (@identity_tensor N2 Nm s).
Proof.
  unfold identity_tensor. pleaf. apply for_sim; [|exact HT]. intros j a b _ Hab. apply ident_step_sim; auto.
Qed.
Lemma lap_D_sim s : osim tsw (@lap_D N1 s) (@lap_D N2 s).
Proof.
  unfold lap_D. eapply osim_bind; [apply write_sim; [rewrite !mf; reflexivity|apply tsw_zeros]|]. intros A B HAB. pleaf. pleaf.
Qed.
Lemma add_b_sim (C : T1) (C' : T2) s fs fs' : tsim C C' -> Forall2 bsim fs fs' -> osim tsw (add_b C s fs) (add_b C' s fs').
Proof.
  intros HC Hf. unfold add_b. rewrite (tsim_order _ _ HC). apply osim_bind_same. intros sC _.
  apply (osim_bind (Forall2 fsim)); [apply tixs_sim; auto|]. intros ps qs Hpq. apply assign_sim; auto.
Qed.
Lemma lap_step_sim d s (D : T1) (D' : T2) sq k a b : tsw D D' -> prodR tsw eq a b -> osim (prodR tsw eq) (lap_step d s D sq k a) (lap_step d s D' sq k b).
Proof.
  destruct a as [V q], b as [V' q']. intros HD [HV Hq]. cbn [fst snd] in HV, Hq. subst q'. unfold lap_step.
  eapply osim_bind; [apply identity_sim|]. intros I1 I1' H1. eapply osim_bind; [apply identity_sim|]. intros I2 I2' H2.
  do 5 pleaf. eapply osim_bind; [apply add_b_sim; [apply tsw_sim; exact HV|facs_tac]|]. intros A B HAB. apply osim_ok. split; auto.
Qed.
Lemma lap_sum_sim (D : T1) (D' : T2) V V' Nm s : tsw D D' -> tsw V V' -> osim tsw (lap_sum D V Nm s) (lap_sum D' V' Nm s).
Proof.
  intros HD HV. unfold lap_sum. do 2 pleaf. eapply osim_bind; [apply identity_sim|]. intros I2 I2' H2. do 2 pleaf.
  eapply osim_bind; [apply add_b_sim; [apply tsw_sim; exact HV|facs_tac]|]. intros A B HAB.
  eapply osim_bind; [apply identity_sim|]. intros I1 I1' H1. do 3 pleaf.
  eapply osim_bind; [apply add_b_sim; [apply tsw_sim; exact HAB|facs_tac]|]. intros A2 B2 HAB2.
  eapply osim_bind; [apply (for_sim (prodR tsw eq)); [|split; [exact HAB2|reflexivity]]|].
  { intros j a' b' _ Hab. apply lap_step_sim; auto. }
  intros [? ?] [? ?] [? _]. apply osim_ok. auto.
Qed.
Lemma laplacian_sim (V : T1) (V' : T2) Nm s : tsw V V' -> osim tsw (laplacian_tensor V Nm s) (laplacian_tensor V' Nm s).
Proof.
  intros HV. unfold laplacian_tensor. destruct (Nat.ltb Nm 2); [apply osim_err|]. eapply osim_bind; [apply lap_D_sim|]. intros D D' HD. apply lap_sum_sim; auto.
Qed.
Lemma vec_step_sim (W : list T1) (W' : list T2) i a b : lsim W W' -> prodR tsw eq a b -> osim (prodR tsw eq) (vec_step W i a) (vec_step W' i b).
Proof.
  destruct a as [V q], b as [V' q']. intros HW [HV Hq]. cbn [fst snd] in HV, Hq. subst q'. unfold vec_step. pfor. repeat pleaf. apply osim_ok. split; auto.
Qed.
Lemma build_V_vec_sim (W : list T1) (W' : list T2) o : lsim W W' -> osim tsw (build_V_vec W o) (build_V_vec W' o).
Proof.
  intros HW. unfold build_V_vec. pleaf. eapply osim_bind; [apply (for_sim (prodR tsw eq)); [|split; [exact HT|reflexivity]]|].
  { intros j a' b' _ Hab. apply vec_step_sim; auto. }
  intros [A qa] [B qb] [HAB Hq]; cbn [fst snd] in HAB, Hq; subst qb. pfor. pleaf. pleaf. pleaf. destruct a0 as [sa sb]. pleaf. pleaf. pleaf. pleaf.
Qed.
Lemma dot1_sim (A : T1) (A' : T2) B B' : tsw A A' -> tsw B B' -> osim numany (dot1 A B) (dot1 A' B').
Proof. intros HA HB. unfold dot1. pleaf. apply osim_ok. exact I. Qed.
Lemma collinearity_sim (A : T1) (A' : T2) B B' : tsw A A' -> tsw B B' -> osim numany (collinearity A B) (collinearity A' B').
Proof. intros HA HB. unfold collinearity. eapply osim_bind; [apply dot1_sim; eauto|]. intros a b _. apply osim_ok. exact I. Qed.
End S.

Section A.
Context {N : num}.
Notation RU := Unum_ring.
Theorem laplacian_any (V : tensor N) d s : 2 <= d -> 2 * d <= 31 -> 1 <= s -> wf V -> lens V = repeat s (2 * d) ->
  exists T, laplacian_tensor V (2 * d) s = Ok T /\ lens T = repeat s (2 * d) /\ wf T.
Proof.
  intros Hd Hn Hs HV HL. assert (HC := cp_sim V HV).
  destruct (osim_run _ _ _ _ (laplacian_sim V (cp V) (2 * d) s HC) (laplacian_ok RU (cp V) d s Hd Hn Hs (proj2 (proj2 HC)) HL)) as (T & E & H1 & H2 & _).
  exists T. split; [exact E|]. split; [exact H1|exact H2].
Qed.
Lemma cps_sim (W : list (tensor N)) : (forall A, In A W -> wf A) -> lsim W (map cp W).
Proof. induction W as [|A W IH]; intros H; cbn [map]; constructor; [apply cp_sim, H; left; auto|apply IH; intros B HB; apply H; right; auto]. Qed.

Lemma for_or' {A} (P : nat -> A -> Prop) body lo hi s e : lo <= hi -> P lo s ->
  (forall j s, lo <= j < hi -> P j s -> (exists s', body j s = Ok s' /\ P (S j) s') \/ body j s = Err e) ->
  (exists s', for_ lo hi body s = Ok s' /\ P hi s') \/ for_ lo hi body s = Err e.
Proof.
  intros Hle. unfold for_. remember (hi - lo)%nat as n eqn:En. revert lo s Hle En.
  induction n; intros lo s Hle En H0 Hs; cbn [loop].
  - left. exists s. replace hi with lo by lia. auto.
  - destruct (Hs lo s ltac:(lia) H0) as [(s' & E & H)|E]; rewrite E; cbn [bind]; auto.
    apply IHn; auto; try lia. intros j s1 Hj. apply Hs. lia.
Qed.
Section G.
Context (rnd : nat -> nat -> tensor N) (ls : list nat) (dim R : nat) (col_min col_max : N).
Hypothesis Hrnd : forall k n, is_vec (rnd k n) n.
Hypothesis Hls : length ls = dim.
Notation vsh := (vshape ls dim R).
Lemma collinearity_any (A B : tensor N) n : is_vec A n -> is_vec B n -> exists c, collinearity A B = Ok c.
Proof.
  intros [HA1 HA2] [HB1 HB2]. destruct (osim_run _ _ _ _ (collinearity_sim A (cp A) B (cp B) (cp_sim A HA2) (cp_sim B HB2)) (collinearity_ok RU (cp A) (cp B) n HA1 HB1)) as (c & E & _). eauto.
Qed.
Lemma first_bad_any n : forall k i j vec, vsh vec -> i < R -> k + n <= R -> j < dim ->
  exists k', first_bad n k i j vec col_min col_max = Ok k'.
Proof.
  induction n; intros k i j vec Hv Hi Hk Hj; cbn [first_bad]; [eauto|].
  pose proof Hv as (HL & Hs). destruct (Hs i Hi) as (Li & Si). destruct (Hs k ltac:(lia)) as (Lk & Sk).
  rewrite (lget_ok vec i []) by lia. cbn [bind]. rewrite (lget_ok _ _ tnil) by lia. cbn [bind].
  rewrite (lget_ok vec k []) by lia. cbn [bind]. rewrite (lget_ok _ _ tnil) by lia. cbn [bind].
  destruct (collinearity_any _ _ _ (Si j Hj) (Sk j Hj)) as (c & E). rewrite E. cbn [bind].
  destruct (_ || _); [eauto|]. apply IHn; auto. lia.
Qed.
Lemma reselect_any fuel : forall i j c vec, vsh vec -> i < R -> j < dim ->
  (exists c' vec', reselect rnd fuel i j (nth j ls 0%nat) col_min col_max c vec = Ok (c', vec') /\ vsh vec') \/
  reselect rnd fuel i j (nth j ls 0%nat) col_min col_max c vec = Err LoopFuel.
Proof.
  induction fuel; intros i j c vec Hv Hi Hj; cbn [reselect]; [auto|].
  destruct (first_bad_any i 0 i j vec Hv Hi ltac:(lia) Hj) as (k & E). rewrite E. cbn [bind].
  destruct (Nat.eqb k i); [left; eauto|].
  pose proof Hv as (HL & Hs). destruct (Hs i Hi) as (Li & Si).
  rewrite (lget_ok vec i []) by lia. cbn [bind]. rewrite lput_ok by lia. cbn [bind]. rewrite lput_ok by lia. cbn [bind].
  apply IHfuel; auto. split; [rewrite lset_length; auto|]. intros i' Hi'. destruct (Hs i' Hi') as (L' & S').
  rewrite lset_nth by lia. destruct (Nat.eqb_spec i' i) as [->|]; [|auto]. split; [rewrite lset_length; auto|].
  intros j' Hj'. rewrite lset_nth by lia. destruct (Nat.eqb_spec j' j) as [->|]; [apply Hrnd|apply S'; auto].
Qed.
Lemma gen_vec_any fuel :
  (exists vec, gen_vec rnd fuel ls dim R col_min col_max = Ok vec /\ vsh vec) \/ gen_vec rnd fuel ls dim R col_min col_max = Err LoopFuel.
Proof.
  unfold gen_vec. destruct (init_spec rnd ls dim R Hrnd Hls) as (c & vec & E & Hv). rewrite E. cbn [bind]. clear E.
  match goal with |- context [for_ 0 dim ?b (c, vec)] => set (body := b) end.
  destruct (for_or' (fun j (st : nat * list (list (tensor N))) => vsh (snd st)) body 0 dim (c, vec) LoopFuel) as [((c' & vec') & E & H1)|E].
  - lia.
  - exact Hv.
  - intros j (c1 & v1) Hj H1. unfold body. cbn [snd] in *.
    destruct (Nat.le_gt_cases R 1) as [HR|HR].
    { left. exists (c1, v1). rewrite for_empty by lia. auto. }
    match goal with |- context [for_ 1 R ?b (c1, v1)] => set (ib := b) end.
    destruct (for_or' (fun i (st : nat * list (list (tensor N))) => vsh (snd st)) ib 1 R (c1, v1) LoopFuel) as [((c2 & v2) & E & K1)|E].
    + lia.
    + exact H1.
    + intros i (c2 & v2) Hi K1. unfold ib. rewrite (lget_ok _ _ 0%nat) by lia. cbn [bind snd] in *.
      destruct (reselect_any fuel i j c2 v2 K1 ltac:(lia) ltac:(lia)) as [(c3 & v3 & E & M1)|E]; [left|right; auto]. exists (c3, v3). auto.
    + left. exists (c2, v2). auto.
    + right. auto.
  - rewrite E. cbn [bind snd] in *. left. eauto.
  - rewrite E. right. auto.
Qed.
Theorem Gen_any fuel : 2 <= dim <= 19 ->
  (exists X, Gen_collinearity rnd fuel ls dim R col_min col_max = Ok X /\ lens X = ls /\ wf X) \/
  Gen_collinearity rnd fuel ls dim R col_min col_max = Err LoopFuel.
Proof.
  intros Hd. unfold Gen_collinearity. rewrite (bset_ok (newbuf (dim + 1))) by (rewrite newbuf_length; lia). cbn [bind].
  destruct (chars_fill dim (lset (newbuf (dim + 1)) dim (Some 0%Z))) as (ba & Ea & La & Ta); [lia|rewrite lset_length, newbuf_length; lia|].
  rewrite Ea. cbn [bind].
  destruct (gen_vec_any fuel) as [(vec & E & Hv)|E]; rewrite E; cbn [bind]; [|right; auto]. left.
  assert (EX : new_tensor dim (map Some ls) = Ok (zeros ls : tensor N)).
  { unfold new_tensor. rewrite (take_list dim _ ls 0%nat); [reflexivity|auto|].
    intros k Hk. rewrite nth_error_map, (nth_error_nth' ls 0%nat) by lia. auto. }
  rewrite EX. cbn [bind].
  match goal with |- context [for_ 0 R ?b _] => set (body := b) end.
  destruct (for_inv (fun i (X : tensor N) => lens X = ls /\ wf X) body 0 R (zeros ls)) as (X & EX' & HX); [lia|split; [reflexivity|apply zeros_wf]| |eauto].
  intros i X Hi (HX1 & HX2). unfold body. destruct Hv as (HLv & Hs). destruct (Hs i ltac:(lia)) as (Lv & Sv).
  rewrite (lget_ok vec i []) by lia. cbn [bind]. set (W := nth i vec []) in *.
  assert (HWf : forall A, In A W -> wf A). { intros A HA. destruct (In_nth _ _ tnil HA) as (m & Hm & <-). apply (Sv m). lia. }
  assert (HU : build_V_vec (map cp W) dim = Ok (outer (map cp W))).
  { apply (build_V_vec_ok RU (map cp W) dim Hd); [rewrite map_length; exact Lv|]. intros m Hm. exists (nth m ls 0). unfold fac. rewrite (nth_map_lt _ _ _ tnil) by lia.
    destruct (Sv m Hm) as [E1 E2]. split; [exact E1|apply (cp_sim _ E2)]. }
  destruct (osim_run _ _ _ _ (build_V_vec_sim W (map cp W) dim (cps_sim W HWf)) HU) as (Y & EY & HY1 & HY2 & _). rewrite EY. cbn [bind].
  assert (Lo : lens Y = ls).
  { rewrite HY1. cbn [lens outer tabulate]. apply (nth_ext _ _ 0%nat 0%nat); [rewrite !map_length; lia|]. intros n Hn. rewrite !map_length in Hn.
    rewrite (nth_map_lt _ _ _ tnil) by (rewrite map_length; auto). rewrite (nth_map_lt _ _ _ tnil) by auto. destruct (Sv n ltac:(lia)) as (Hl & _). cbn [lens cp]. rewrite Hl. auto. }
  unfold tix, order. rewrite HX1, Lo, Hls, Ta by lia. cbn [bind snd].
  assert (HU2 := acc_term RU (fun _ n => zeros [n]) ls dim 0 (fun _ n => conj eq_refl (zeros_wf [n])) Hls (cp X) (cp Y) (tt : Unum) ltac:(lia) HX1 Lo (proj2 (proj2 (cp_sim X HX2))) (proj2 (proj2 (cp_sim Y HY2)))).
  match type of HU2 with ?a = _ => match goal with |- context [assign ?p1 ?p2 ?p3 ?p4] =>
     assert (HS : osim tsw (assign p1 p2 p3 p4) a) end end.
  { apply assign_sim; [exact (proj1 (cp_sim X HX2))|]. repeat (apply Forall2_cons || apply Forall2_nil); unfold termsim; cbn [facs]; repeat (apply Forall2_cons || apply Forall2_nil); split; reflexivity. }
  destruct (osim_run _ _ _ _ HS HU2) as (Z & EZ & HZ1 & HZ2 & _). exists Z. split; [exact EZ|]. split; [exact HZ1|exact HZ2].
Qed.
End G.
End A.
