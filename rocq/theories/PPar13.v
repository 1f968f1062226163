(** The optimizers of src/optimizer over an arbitrary number type, in lockstep with the number type with one element. *)
From Coq Require Import List ZArith QArith Lia Bool Arith.
From Verif Require Import Base Num Tensor Spec Spec3 MCommon MCP MOpt MOptLR PBase PTensor PPar PPar2 PPar3 POptStep.
Import ListNotations.
Local Close Scope Q_scope.

(** the routines over one element *)
Definition ULA2 : lapack Unum := {|
  svd := fun S k => (zeros [nrow S; k], zeros [k], zeros [k; ncol S]);
  cholesky := fun S => zeros (lens S);
  solve_tri := fun B L _ _ _ => zeros (lens B);
  qr_q := fun A => zeros (lens A);
  rnd := fun _ ls => zeros ls |}.
Lemma zeros_mat {N : num} r c : is_mat (zeros [r; c] : tensor N) r c.
Proof. split; [reflexivity|apply tab_wf']. Qed.
Lemma ULA2_tri : tri_shaped (cholesky ULA2) (solve_tri ULA2).
Proof. split; cbn; intros; [destruct H as [-> _]|destruct H as [-> _]]; apply zeros_mat. Qed.
Lemma ULA2_low : low_shaped (svd ULA2) (qr_q ULA2) (rnd ULA2).
Proof.
  split; [|split]; cbn; intros.
  - destruct H as [E _]. unfold nrow, ncol. rewrite E. cbn. split; [apply zeros_mat|]. split; [reflexivity|]. split; [apply tab_wf'|apply zeros_mat].
  - destruct H as [-> _]. apply zeros_mat.
  - apply zeros_mat.
Qed.
Lemma osim_bind_eq {X Y X' Y'} (R : X -> Y -> Prop) (R' : X' -> Y' -> Prop) x y f g :
  osim R x y -> (forall a b, y = Ok b -> R a b -> osim R' (f a) (g b)) -> osim R' (bind x f) (bind y g).
Proof.
  intros Hx Hf c E. apply bind_ok in E as (b & Eb & Ec). destruct (Hx b Eb) as (a & -> & Ha).
  cbn [bind]. exact (Hf a b Eb Ha c Ec).
Qed.
Lemma osim_and {X Y} (R : X -> Y -> Prop) (P : Y -> Prop) x y : osim R x y -> (forall b, y = Ok b -> P b) -> osim (fun a b => R a b /\ P b) x y.
Proof. intros H HP b E. destruct (H b E) as (a & Ea & Ha). eauto. Qed.
Lemma assign_lens {N : num} acc (C : tensor N) s ts r : assign acc C s ts = Ok r -> lens r = lens C.
Proof. unfold assign. destruct (_ && _); [|discriminate]. intros [= <-]. reflexivity. Qed.
Lemma tsw_mat {N1 N2 : num} (A : tensor N1) (B : tensor N2) r c : tsw A B -> lens B = [r; c] -> is_mat A r c.
Proof. intros (H1 & H2 & _) E. split; auto. rewrite H1. exact E. Qed.
Lemma mat_tsw {N1 N2 : num} (A : tensor N1) (B : tensor N2) r c : is_mat A r c -> is_mat B r c -> tsw A B.
Proof. intros [H1 H2] [H3 H4]. split; [rewrite H1, H3; reflexivity|]. auto. Qed.
(** the shape of M is forced by the statement that builds the gradient *)
Lemma grad_shape {N : num} (M S W G r : tensor N) a b : lens G = [a; b] -> gradsubprob M S W G = Ok r -> lens M = [a; b].
Proof.
  unfold gradsubprob, assign. intros HG E. destruct (_ && _) eqn:Ec; [|discriminate]. clear E. apply andb_prop in Ec as [_ Ec].
  cbn [forallb] in Ec. apply andb_prop in Ec as [Ec _]. unfold term_ok in Ec. apply andb_prop in Ec as [E1 E2].
  cbn -[Nat.eqb] in E1. rewrite andb_true_r in E1. apply Nat.eqb_eq in E1. unfold order in E1.
  destruct (lens M) as [|x [|y [|]]] eqn:El; try discriminate. clear E1.
  unfold consistent, dims in E2. cbn -[Nat.eqb] in E2. rewrite HG, El in E2. cbn -[Nat.eqb] in E2. rewrite !andb_true_iff in E2.
  destruct E2 as (_ & _ & H1 & H2 & _). apply Nat.eqb_eq in H1, H2. congruence.
Qed.

Lemma loop_post {S} (P : S -> Prop) body n : forall i s, P s -> (forall j x y, P x -> body j x = Ok y -> P y) -> forall r, loop n i body s = Ok r -> P r.
Proof.
  induction n as [|n IH]; intros i s Hs Hb r E; cbn [loop] in E; [injection E as <-; exact Hs|].
  apply bind_ok in E as (y & Ey & E). eapply IH; [|exact Hb|exact E]. eapply Hb; eauto.
Qed.
Section S.
Context {N : num} (LA : lapack N) (Hsh : tri_shaped (cholesky LA) (solve_tri LA)).
Notation T1 := (tensor N).
Notation T2 := (tensor Unum).
Context (V : T1) (R : nat).
Notation U := (cp V).
Context (HV : wf V).
Let HVU : tsw V U := cp_sim V HV.

Definition optR (a : opt_st N) (b : opt_st Unum) : Prop :=
  lsim (oW a) (oW b) /\ lsim (oG a) (oG b) /\ tsw (oS a) (oS b) /\ mats_ok U (oW b) R /\ mats_ok U (oG b) R /\ lens (oS b) = [R; R].

Lemma cholesky_solve_sim (M S : T1) (M' S' : T2) r : tsw M M' -> tsw S S' -> lens M' = [r; R] -> lens S' = [R; R] ->
  osim (fun a b => tsw a b /\ lens b = [r; R]) (cholesky_solve LA M S) (cholesky_solve ULA2 M' S').
Proof.
  intros HM HS EM ES. assert (Sm := tsw_mat _ _ _ _ HS ES). assert (Mm := tsw_mat _ _ _ _ HM EM).
  destruct Hsh as [H1 H2]. assert (HL := H1 _ _ Sm). unfold cholesky_solve.
  assert (HLs : tsw (cholesky LA S) (cholesky ULA2 S')).
  { apply (mat_tsw _ _ R R); auto. cbn. rewrite ES. apply zeros_mat. }
  eapply osim_bind; [apply assign_sim; [auto with par|facs_tac]|]. intros ? ? _. apply osim_ok.
  cbn [ULA2 solve_tri lens zeros tabulate]. split; [|exact EM]. apply (mat_tsw _ _ r R).
  - apply H2; auto.
  - rewrite EM. apply zeros_mat.
Qed.
Lemma update_S_sim o (regul : T1) (regul' : T2) W W' S S' n : tsw regul regul' -> lsim W W' -> tsw S S' ->
  osim tsw (update_S o regul W S n) (update_S o regul' W' S' n).
Proof.
  intros Hr HW HS. unfold update_S. pleaf. destruct a as [ix j]. pleaf. destruct a as [ix' j'].
  eapply osim_bind; [apply gram_index_sim; eauto|]. intros A B HAB. apply assign_sim; [auto with par|facs_tac].
Qed.
Lemma gram_lens (S : T2) W o ix r : gram_index S W o ix = Ok r -> lens r = lens S.
Proof.
  unfold gram_index. intros E. apply bind_ok in E as (i0 & _ & E). apply bind_ok in E as (W0 & _ & E). apply bind_ok in E as (S1 & E1 & E).
  apply assign_lens in E1. rewrite <- E1. clear E1.
  eapply (loop_post (fun x => lens x = lens S1)); [reflexivity| |exact E]. intros j x y Hx Ey.
  apply bind_ok in Ey as (? & _ & Ey). apply bind_ok in Ey as (? & _ & Ey). apply assign_lens in Ey. congruence.
Qed.
Lemma update_S_lens o (regul : T2) W S n r : update_S o regul W S n = Ok r -> lens r = lens S.
Proof.
  unfold update_S. intros E. apply bind_ok in E as ([? ?] & _ & E). apply bind_ok in E as ([? ?] & _ & E). apply bind_ok in E as (S1 & E1 & E).
  apply gram_lens in E1. apply assign_lens in E. congruence.
Qed.
Lemma mats_nth (W : list T2) n A : mats_ok U W R -> lget W n = Ok A -> exists r, lens A = [r; R] /\ (n < order V)%nat /\ r = nth n (lens V) 0%nat.
Proof.
  intros [HL HM] E. change (order U) with (order V) in *. change (lens U) with (lens V) in HM. assert (Hn : (n < length W)%nat).
  { unfold lget in E. destruct (nth_error W n) eqn:En; [|discriminate]. apply nth_error_Some. congruence. }
  rewrite (lget_ok W n tnil) in E by exact Hn. assert (E' : nth n W tnil = A) by congruence. rewrite HL in Hn.
  destruct (HM n Hn) as [H _]. unfold fac in H. rewrite E' in H. eauto.
Qed.
Lemma mats_lput (W : list T2) n A W' : mats_ok U W R -> lput W n A = Ok W' -> is_mat A (nth n (lens V) 0%nat) R -> mats_ok U W' R.
Proof.
  intros [HL HM] E HA. unfold lput in E. destruct (n <? length W)%nat eqn:En; [|discriminate]. injection E as <-. split; [rewrite lset_length; exact HL|].
  intros m Hm. unfold fac. apply Nat.ltb_lt in En. destruct (Nat.eq_dec m n) as [->|Hne].
  - rewrite lset_nth by exact En. rewrite Nat.eqb_refl. exact HA.
  - rewrite lset_nth by exact En. destruct (Nat.eqb_spec m n); [contradiction|]. apply HM. exact Hm.
Qed.
Lemma opt_update_sim o regul regul' M M' n a b : tsw regul regul' -> tsw M M' -> optR a b ->
  osim optR (opt_update LA o regul M n a) (opt_update ULA2 o regul' M' n b).
Proof.
  intros Hr HM (H1 & H2 & H3 & H4 & H5 & H6). unfold opt_update.
  eapply osim_bind_eq; [apply update_S_sim; eauto|]. intros S S' ES HS. apply update_S_lens in ES. rewrite H6 in ES.
  eapply osim_bind_eq; [apply lget_sim; eauto|]. intros g g' Eg Hg.
  eapply osim_bind_eq; [apply lget_sim; eauto|]. intros Wn Wn' Ew Hw.
  eapply osim_bind_eq; [apply gradsubprob_sim; eauto|]. intros g2 g2' Eg2 Hg2.
  destruct (mats_nth _ _ _ H5 Eg) as (r & Er & _ & Er').
  assert (EM := grad_shape _ _ _ _ _ _ _ Er Eg2).
  assert (Eg2' : lens g2' = [r; R]) by (unfold gradsubprob in Eg2; apply assign_lens in Eg2; congruence).
  eapply osim_bind_eq; [apply lput_sim; eauto|]. intros G G' EG HG.
  eapply osim_bind; [apply (cholesky_solve_sim _ _ _ _ r); eauto|]. intros X X' [HX EX].
  eapply osim_bind_eq; [apply lput_sim; eauto|]. intros Y Y' EY HY. apply osim_ok.
  split; [exact HY|]. split; [exact HG|]. split; [exact HS|]. split; [|split; [|exact ES]].
  - apply (mats_lput _ _ _ _ H4 EY). rewrite <- Er'. split; [exact EX|apply HX].
  - apply (mats_lput _ _ _ _ H5 EG). rewrite <- Er'. split; [exact Eg2'|apply Hg2].
Qed.

(** ** CPSimpleOptimizer *)
Lemma simple_mode_sim regul regul' i a b : tsw regul regul' -> prodR optR eq a b ->
  osim (prodR optR eq) (simple_mode LA V regul i a) (simple_mode ULA2 U regul' i b).
Proof.
  destruct a as [a q], b as [b q']. intros Hr [Hab Hq]. cbn [fst snd] in Hab, Hq. subst q'. assert (H := Hab). destruct H as (H1 & H2 & H3 & H4 & H5 & H6).
  unfold simple_mode. change (order U) with (order V). apply osim_bind_same. intros sq _.
  eapply osim_bind; [apply lget_sim; eauto|]. intros Wi Wi' Hw. rewrite (tsw_ncol _ _ Hw), (tsw_nrow _ _ Hw).
  apply (osim_bind eq).
  { unfold make_index. apply (osim_bind eq); [|intros ? [? ?] ->; apply osim_refl].
    apply (for_sim eq); [|reflexivity]. intros j ? [? ?] _ ->. apply osim_bind_same; intros c _. apply osim_bind_same; intros ij _. apply osim_bind_same; intros ixx _.
    apply (osim_bind eq); [eapply osim_bind; [apply lget_sim; eauto|]; intros A B HAB; rewrite (tsw_nrow _ _ HAB); apply osim_refl|]. intros ll ? ->. apply osim_refl. }
  intros ? [index lH] ->.
  eapply osim_bind; [apply KhatriRao_sim; eauto with par|]. intros M M' HM.
  eapply osim_bind; [apply opt_update_sim; eauto|]. intros st st' Hst. apply osim_bind_same. intros sq2 _. apply osim_ok. split; auto.
Qed.
Lemma simple_step_sim regul regul' a b : tsw regul regul' -> prodR optR eq a b ->
  osim (prodR eq (prodR optR eq)) (simple_step LA V regul a) (simple_step ULA2 U regul' b).
Proof.
  intros Hr Hab. unfold simple_step. change (order U) with (order V). eapply osim_bind.
  - apply for_sim; [|exact Hab]. intros. apply simple_mode_sim; auto.
  - intros x y Hxy. apply osim_ok. split; auto.
Qed.

(** ** the tree optimizers *)
Lemma node_lens_sim (W : list T1) (W' : list T2) f s : lsim W W' -> osim eq (node_lens V W f s) (node_lens U W' f s).
Proof.
  intros HW. unfold node_lens. apply (for_sim eq); [|reflexivity]. intros j ? b _ ->. apply osim_bind_same. intros c _. apply (osim_bind eq).
  - destruct (Z.eqb c ch_star); [|apply osim_refl]. eapply osim_bind; [apply lget_sim; eauto|]. intros A B HAB. rewrite (tsw_ncol _ _ HAB). apply osim_refl.
  - intros ll ? ->. apply osim_refl.
Qed.
Lemma fresh_top_sim (W : list T1) (W' : list T2) sq l : lsim W W' -> osim tsw (fresh_top V W sq l) (fresh_top U W' sq l).
Proof.
  intros HW. unfold fresh_top. change (order U) with (order V). apply osim_bind_same. intros s _.
  eapply osim_bind; [apply node_lens_sim; eauto|]. intros ls ? ->.
  eapply osim_bind; [apply lget_sim; eauto|]. intros Wl Wl' Hw. apply osim_bind_same. intros sV _. apply assign_sim; [auto with par|facs_tac].
Qed.
Lemma opt_map_DT_sim (W : list T1) (W' : list T2) t indexes : lsim W W' -> forall fuel mp mp' s, msim mp mp' ->
  osim msim (opt_map_DT fuel V W t indexes mp s) (opt_map_DT fuel U W' t indexes mp' s).
Proof.
  intros HW. induction fuel as [|fuel IH]; intros mp mp' s Hm; cbn [opt_map_DT]; [apply osim_err|]. cbv zeta.
  apply (osim_bind msim).
  { assert (Hp := Hm (sget (fst t) s)). destruct (mp (sget (fst t) s)), (mp' (sget (fst t) s)); try contradiction; [apply osim_ok; auto|]. apply IH; auto. }
  intros m1 m2 H12. apply osim_bind_same. intros c _. apply osim_bind_same. intros wi _.
  eapply osim_bind; [apply node_lens_sim; eauto|]. intros ls ? ->. apply osim_bind_same. intros m _.
  eapply osim_bind; [apply lget_sim; eauto|]. intros Wm Wm' Hw.
  eapply osim_bind; [apply assign_sim; [auto with par|facs_tac]|]. intros T T' HT. apply osim_ok, msim_put; auto.
Qed.
Lemma msim_tget_wf m m' (k : str) : @msim N Unum m m' -> forall A, m' k = Some A -> tsw (tget m k) (tget m' k).
Proof. intros H A E. specialize (H k). unfold tget. rewrite E in *. destruct (m k); [exact H|contradiction]. Qed.
Lemma opt_map_put (W' : list T2) t indexes fuel mp s m : opt_map_DT fuel U W' t indexes mp s = Ok m -> exists A, m s = Some A.
Proof.
  destruct fuel; cbn [opt_map_DT]; [discriminate|]. cbv zeta. intros E. do 7 apply bind_ok in E as (? & _ & E). injection E as <-.
  unfold sput. rewrite str_eqb_refl. eauto.
Qed.
Lemma leaf_M_sim fuel (W : list T1) (W' : list T2) t indexes mp mp' i : lsim W W' -> msim mp mp' ->
  osim (prodR msim tsw) (leaf_M fuel V W t indexes mp i) (leaf_M fuel U W' t indexes mp' i).
Proof.
  intros HW Hm. unfold leaf_M. apply osim_bind_same. intros ms _.
  apply (osim_bind (fun a b => msim a b /\ exists A, b ms = Some A)).
  { assert (Hp := Hm ms). destruct (mp ms), (mp' ms) as [A|] eqn:EA; try contradiction; [apply osim_ok; eauto|].
    apply osim_and; [apply opt_map_DT_sim; auto|]. intros b. apply opt_map_put. }
  intros m1 m2 [H12 [A EA]]. apply osim_ok. split; [exact H12|]. cbn [fst snd]. eapply msim_tget_wf; eauto.
Qed.
Lemma tree_mode_sim fuel regul regul' t indexes i a b : tsw regul regul' -> prodR optR msim a b ->
  osim (prodR optR msim) (tree_mode LA fuel V regul t indexes i a) (tree_mode ULA2 fuel U regul' t indexes i b).
Proof.
  destruct a as [a mp], b as [b mp']. intros Hr [Hab Hm]. cbn [fst snd] in Hab, Hm. unfold tree_mode. change (order U) with (order V).
  eapply osim_bind; [apply leaf_M_sim; [apply Hab|exact Hm]|]. intros [m1 M] [m2 M'] [Hm1 HM]. cbn [fst snd] in Hm1, HM.
  apply osim_bind_same. intros n _. eapply osim_bind; [apply opt_update_sim; eauto|]. intros x y Hxy. apply osim_ok. split; auto.
Qed.
Definition dtR (a : dt_st N) (b : dt_st Unum) : Prop :=
  optR (ds a) (ds b) /\ (dtree a, dtop a, dseq a, dfirst a, dix1 a, dix2 a, dl1 a, dl2 a, dspecial a) = (dtree b, dtop b, dseq b, dfirst b, dix1 b, dix2 b, dl1 b, dl2 b, dspecial b).
Lemma dt_step_sim fuel regul regul' a b : tsw regul regul' -> dtR a b ->
  osim (prodR eq dtR) (dt_step LA fuel V regul a) (dt_step ULA2 fuel U regul' b).
Proof.
  intros Hr [Hab E]. destruct a as [st t top sq fi i1 i2 l1 l2 sp], b as [st' t' top' sq' fi' i1' i2' l1' l2' sp']. cbn [ds dtree dtop dseq dfirst dix1 dix2 dl1 dl2 dspecial] in Hab, E.
  injection E as -> -> -> -> -> -> -> -> ->. unfold dt_step. cbn [ds dtree dtop dseq dfirst dix1 dix2 dl1 dl2 dspecial]. cbv zeta.
  eapply osim_bind; [apply fresh_top_sim; apply Hab|]. intros T T' HT. destruct (dt_range _ _ _) as [lo hi].
  eapply osim_bind; [apply for_sim; [intros; apply tree_mode_sim; eauto|split; [exact Hab|apply msim_put; auto with par]]|].
  intros [x mp] [y mp'] [Hxy _]. apply osim_ok. split; [reflexivity|]. split; [exact Hxy|reflexivity].
Qed.
Definition msR (a : ms_st N) (b : ms_st Unum) : Prop :=
  optR (mss a) (mss b) /\ (mtree a, mtop a, mseq a, mix a, mleft a) = (mtree b, mtop b, mseq b, mix b, mleft b).
Lemma ms_step_sim fuel regul regul' a b : tsw regul regul' -> msR a b ->
  osim (prodR eq msR) (ms_step LA fuel V regul a) (ms_step ULA2 fuel U regul' b).
Proof.
  intros Hr [Hab E]. destruct a as [st t top sq ix l], b as [st' t' top' sq' ix' l']. cbn [mss mtree mtop mseq mix mleft] in Hab, E.
  injection E as -> -> -> -> ->. unfold ms_step. change (order U) with (order V). cbn [mss mtree mtop mseq mix mleft]. cbv zeta.
  apply osim_bind_same. intros indexes _.
  eapply osim_bind; [apply fresh_top_sim; apply Hab|]. intros T T' HT.
  eapply osim_bind; [apply for_sim; [intros; apply tree_mode_sim; eauto|split; [exact Hab|apply msim_put; auto with par]]|].
  intros [x mp] [y mp'] [Hxy _]. apply osim_ok. split; [reflexivity|]. split; [exact Hxy|reflexivity].
Qed.
End S.
