(** Shapes do not depend on numbers (PPar.v), continued: the solver, the sweeps, the pairwise-perturbation
    operators and updates, against the number type with one element. *)
From Coq Require Import List ZArith QArith Lia Bool Arith.
From Verif Require Import Base Num Tensor Spec MCommon MCP PBase PTensor PPar.
Import ListNotations.
Local Close Scope Q_scope.

(** the number type with one element: it satisfies every law *)
Definition Unum : num := mkNum unit tt tt (fun _ _ => tt) (fun _ _ => tt) (fun _ _ => tt) (fun _ => tt) (fun _ _ => tt) (fun _ => tt)
  (fun _ => tt) (fun _ _ => false) (fun _ _ => false) (fun _ _ => tt) (fun _ => tt).
Lemma Unum_ring : ring_laws Unum.
Proof. constructor; cbn; intros; repeat match goal with x : unit |- _ => destruct x end; reflexivity. Qed.
(** a decomposition routine over it *)
Definition ULA : lapack Unum := {|
  svd := fun S k => (zeros [k; k], zeros [k], zeros [k; k]);
  cholesky := fun S => zeros (lens S);
  solve_tri := fun B L _ _ _ => zeros (lens B);
  qr_q := fun A => zeros (lens A);
  rnd := fun _ ls => zeros ls |}.
Lemma ULA_shaped : svd_shaped (svd ULA).
Proof. intros S k HS. cbn. repeat split; try apply tabulate_wf. Qed.
Definition cp {N : num} (A : tensor N) : tensor Unum := @mkT Unum (lens A) (repeat (tt : Unum) (length (data A))).
Lemma cp_sim {N : num} (A : tensor N) : wf A -> tsw A (cp A).
Proof. intros H. split; [reflexivity|]. split; auto. unfold wf, cp. cbn. rewrite repeat_length. exact H. Qed.

Section Par3.
Context {N : num} (LA : lapack N) (Hsh : svd_shaped (svd LA)).
Notation T1 := (tensor N).
Notation T2 := (tensor Unum).

Lemma inv_sim (s : T1) (s' : T2) : tsw s s' -> tsw (inv_all s) (inv_all s').
Proof. intros (H1 & H2 & H3). split; [exact H1|]. split; unfold wf, inv_all; cbn; rewrite map_length; auto. Qed.
Lemma square_assign (S : T2) k r : ncol S = k ->
  assign false S sij [prodt [(zeros [k; k] : T2, ski); (inv_all (zeros [k] : T2), [ch_k]); (zeros [k; k] : T2, sjk)]] = Ok r -> lens S = [k; k].
Proof.
  unfold assign. intros Hk E. destruct (_ && _) eqn:Ec; [|discriminate]. apply andb_prop in Ec as [E1 E2]. clear E.
  apply Nat.eqb_eq in E1. unfold order in E1. unfold ncol in Hk. destruct (lens S) as [|a [|b [|]]] eqn:El; try discriminate.
  cbn in Hk. subst b. cbn [forallb] in E2. rewrite andb_true_r in E2. unfold term_ok in E2. apply andb_prop in E2 as [_ E2].
  unfold consistent, dims in E2. cbn -[Nat.eqb] in E2. rewrite El in E2. cbn -[Nat.eqb] in E2.
  rewrite !andb_true_iff in E2. destruct E2 as (H1 & H2 & H3 & H4 & _). clear -H1 H2 H3 H4. f_equal.
  repeat match goal with H : (_ =? _) = true |- _ => apply Nat.eqb_eq in H end. lia.
Qed.
Lemma SVD_solve_sim (M : T1) (M' : T2) W W' S S' : tsw M M' -> tsw W W' -> tsw S S' ->
  osim tsw (SVD_solve LA M W S) (SVD_solve ULA M' W' S').
Proof.
  intros HM HW HS. intros b E. revert b E. unfold SVD_solve. rewrite (tsw_ncol _ _ HS).
  destruct (svd LA S (ncol S')) as [[U s] VT] eqn:Es. cbn [svd ULA].
  intros b E. assert (E0 := E). apply bind_ok in E0 as (r & Er & _). apply (square_assign S' (ncol S')) in Er; auto.
  assert (Hm : is_mat S (ncol S') (ncol S')). { destruct HS as (H1 & H2 & _). split; auto. rewrite H1. exact Er. }
  specialize (Hsh S (ncol S') Hm). rewrite Es in Hsh. destruct Hsh as ([HU1 HU2] & Hs1 & Hs2 & [HV1 HV2]).
  assert (HU : tsw U (zeros [ncol S'; ncol S'] : T2)) by (split; [exact HU1|split; [auto|apply tabulate_wf]]).
  assert (Hs : tsw s (zeros [ncol S'] : T2)) by (split; [exact Hs1|split; [auto|apply tabulate_wf]]). apply inv_sim in Hs.
  assert (HV : tsw VT (zeros [ncol S'; ncol S'] : T2)) by (split; [exact HV1|split; [auto|apply tabulate_wf]]).
  revert b E. match goal with |- forall b, ?y = Ok b -> exists a, ?x = Ok a /\ tsw a b => change (osim tsw x y) end.
  repeat pleaf.
Qed.
Lemma add_regul_sim l l' (S : T1) (S' : T2) R R' : tsw S S' -> tsw R R' -> osim tsw (add_regul l S R) (add_regul l' S' R').
Proof.
  intros HS HR. unfold add_regul. cbn [neqb Unum negb]. destruct (negb _); [pleaf|].
  intros b E. exists S. split; auto. unfold assign in E. destruct (_ && _); [|discriminate]. injection E as <-.
  destruct HS as (H1 & H2 & H3). split; [exact H1|]. split; [auto|apply tabulate_wf].
Qed.
Lemma SVD_solve_mod_sim (M : T1) (M' : T2) W W' Wi Wi' D D' S S' r r' : tsw M M' -> tsw W W' -> tsw Wi Wi' -> tsw D D' -> tsw S S' ->
  osim (prodR tsw tsw) (SVD_solve_mod LA M W Wi D S r) (SVD_solve_mod ULA M' W' Wi' D' S' r').
Proof.
  intros HM HW HWi HD HS. unfold SVD_solve_mod. eapply osim_bind; [apply SVD_solve_sim; eauto|]. intros A A' HA.
  pleaf. cbn [neqb Unum negb]. destruct (negb _). { repeat pleaf. apply osim_ok. split; auto. }
  intros b E. apply bind_ok in E as (A2 & E & E2). injection E2 as <-. exists (A, Ta). split; auto.
  unfold assign in E. destruct (_ && _); [|discriminate]. injection E as <-.
  split; auto. cbn [fst]. destruct HA as (H1 & H2 & H3). split; [exact H1|]. split; [auto|apply tabulate_wf].
Qed.

(** ** modes and sweeps *)
Lemma alsCP_mode_sim (V : T1) (V' : T2) F F' i W W' S S' sq : tsw V V' -> lsim F F' -> lsim W W' -> tsw S S' ->
  osim (prodR (prodR lsim tsw) eq) (alsCP_mode LA V F i (W, S, sq)) (alsCP_mode ULA V' F' i (W', S', sq)).
Proof.
  intros HV HF HW HS. unfold alsCP_mode. rewrite (tsw_order _ _ HV), (tsw_lens _ _ HV). repeat pleaf.
  match goal with p : (buf nat * buf nat)%type |- _ => destruct p as [index lH] end.
  eapply osim_bind; [apply KhatriRao_sim; auto with par|]. intros M M' HM.
  eapply osim_bind; [apply gram_index_sim; eauto|]. intros Sa Sb HSa. repeat pleaf.
  eapply osim_bind; [apply SVD_solve_sim; eauto|]. intros A A' HA. repeat pleaf. apply osim_ok; split; [split|]; auto.
Qed.
Lemma alsCP_sweep_sim (V : T1) (V' : T2) F F' W W' S S' sq : tsw V V' -> lsim F F' -> lsim W W' -> tsw S S' ->
  osim (prodR (prodR lsim tsw) eq) (alsCP_sweep LA V F (W, S, sq)) (alsCP_sweep ULA V' F' (W', S', sq)).
Proof.
  intros HV HF HW HS. unfold alsCP_sweep. rewrite (tsw_order _ _ HV). apply for_sim; [|split; [split|]; auto].
  intros i [[? ?] ?] [[? ?] ?] _ [[? ?] ?]; cbn [fst snd] in *; subst. apply alsCP_mode_sim; auto.
Qed.
Notation swR := (prodR (prodR (prodR (prodR lsim lsim) tsw) msim) eq).
Lemma DT_mode_sim fuel parent sibling (V : T1) (V' : T2) F F' regul regul' i a b : tsw V V' -> lsim F F' -> tsw regul regul' -> swR a b ->
  osim swR (alsCP_DT_mode LA fuel parent sibling V F regul i a) (alsCP_DT_mode ULA fuel parent sibling V' F' regul' i b).
Proof.
  intros HV HF HR. destruct a as [[[[W G] S] mp] sq], b as [[[[W' G'] S'] mp'] sq']. intros [[[[HW HG] HS] Hm] Hq]; cbn [fst snd] in *; subst sq'.
  unfold alsCP_DT_mode. rewrite (tsw_order _ _ HV), (tsw_lens _ _ HV). repeat pleaf.
  match goal with p : (buf nat * buf nat)%type |- _ => destruct p as [index lH] end.
  eapply osim_bind; [apply dt_M_sim; eauto|]. intros [m1 M] [m2 M'] [Hm12 HM]; cbn [fst snd] in *.
  eapply osim_bind; [apply gram_index_sim; eauto|]. intros Sa Sb HSa. repeat pleaf.
  eapply osim_bind; [apply gradsubprob_sim; eauto|]. intros g g' Hg. repeat pleaf.
  eapply osim_bind; [apply SVD_solve_sim; eauto|]. intros A A' HA. repeat pleaf. apply osim_ok; split; [split; [split; [split|]|]|]; auto.
Qed.
Lemma DT_sub_mode_sim fuel parent sibling (V : T1) (V' : T2) l l' regul regul' i a b : tsw V V' -> tsw regul regul' -> swR a b ->
  osim swR (DT_sub_mode LA fuel parent sibling V l regul i a) (DT_sub_mode ULA fuel parent sibling V' l' regul' i b).
Proof.
  intros HV HR. destruct a as [[[[W G] S] mp] sq], b as [[[[W' G'] S'] mp'] sq']. intros [[[[HW HG] HS] Hm] Hq]; cbn [fst snd] in *; subst sq'.
  unfold DT_sub_mode. rewrite (tsw_order _ _ HV), (tsw_lens _ _ HV). repeat pleaf.
  match goal with p : (buf nat * buf nat)%type |- _ => destruct p as [index lH] end.
  eapply osim_bind; [apply dt_M_sim; eauto|]. intros [m1 M] [m2 M'] [Hm12 HM]; cbn [fst snd] in *.
  eapply osim_bind; [apply gram_index_sim; eauto|]. intros Sa Sb HSa.
  eapply osim_bind; [apply add_regul_sim; eauto|]. intros Sc Sd HSc. repeat pleaf.
  eapply osim_bind; [apply gradsubprob_sim; eauto|]. intros g g' Hg. repeat pleaf.
  eapply osim_bind; [apply SVD_solve_sim; eauto|]. intros A A' HA. repeat pleaf. apply osim_ok; split; [split; [split; [split|]|]|]; auto.
Qed.
Notation swR3 := (prodR (prodR (prodR lsim lsim) tsw) eq).
Lemma DT_sweep_sim fuel parent sibling (V : T1) (V' : T2) F F' regul regul' W W' G G' S S' sq : tsw V V' -> lsim F F' -> tsw regul regul' ->
  lsim W W' -> lsim G G' -> tsw S S' ->
  osim swR3 (alsCP_DT_sweep LA fuel parent sibling V F regul W G S sq) (alsCP_DT_sweep ULA fuel parent sibling V' F' regul' W' G' S' sq).
Proof.
  intros HV HF HR HW HG HS. unfold alsCP_DT_sweep. rewrite (tsw_order _ _ HV). apply (osim_bind swR).
  - apply for_sim; [|split; [split; [split; [split|]|]|]; cbn [fst snd]; auto with par]. intros i a b _ Hab. apply DT_mode_sim; auto.
  - intros [[[[Wa Ga] Sa] mp] sa] [[[[Wb Gb] Sb] mp'] sb] [[[[HWa HGa] HSa] Hm] Hq]; cbn [fst snd] in *; subst sb.
    eapply osim_bind; [apply Normalize_sim; eauto|]. intros. apply osim_ok. split; [split; [split|]|]; auto.
Qed.
Lemma DT_sub_sweep_sim fuel parent sibling (V : T1) (V' : T2) l l' regul regul' W W' G G' S S' sq : tsw V V' -> tsw regul regul' ->
  lsim W W' -> lsim G G' -> tsw S S' ->
  osim swR3 (DT_sub_sweep LA fuel parent sibling V l regul W G S sq) (DT_sub_sweep ULA fuel parent sibling V' l' regul' W' G' S' sq).
Proof.
  intros HV HR HW HG HS. unfold DT_sub_sweep. rewrite (tsw_order _ _ HV). apply (osim_bind swR).
  - apply for_sim; [|split; [split; [split; [split|]|]|]; cbn [fst snd]; auto with par]. intros i a b _ Hab. apply DT_sub_mode_sim; auto.
  - intros [[[[Wa Ga] Sa] mp] sa] [[[[Wb Gb] Sb] mp'] sb] [[[[HWa HGa] HSa] Hm] Hq]; cbn [fst snd] in *; subst sb.
    eapply osim_bind; [apply Normalize_sim; eauto|]. intros. apply osim_ok. split; [split; [split|]|]; auto.
Qed.

(** ** pairwise perturbation *)
Lemma op_lens_eq (V : T1) (V' : T2) K s : tsw V V' -> op_lens V K s = op_lens V' K s.
Proof. intros H. unfold op_lens. rewrite (tsw_lens _ _ H). reflexivity. Qed.
Lemma Build_map_sim same (V : T1) (V' : T2) W W' : tsw V V' -> lsim W W' -> forall fuel mp mp' sq, msim mp mp' ->
  osim msim (Build_mttkrp_map fuel same V W mp sq) (Build_mttkrp_map fuel same V' W' mp' sq).
Proof.
  intros HV HW. induction fuel as [|fuel IH]; intros mp mp' sq Hm; cbn [Build_mttkrp_map]; [apply osim_err|].
  rewrite (tsw_order _ _ HV). pleaf. destruct (Nat.eqb _ 1).
  - do 3 pleaf. rewrite (op_lens_eq _ _ _ _ HV). repeat pleaf. apply osim_ok, msim_put; auto.
  - destruct (Nat.eqb _ 0); [apply osim_err|]. do 3 pleaf. apply (osim_bind msim).
    { assert (Hp := Hm a1). destruct (mp a1), (mp' a1); try contradiction; [apply osim_ok; auto|]. apply IH; auto. }
    intros m1 m2 Hm12. do 3 pleaf. rewrite (op_lens_eq _ _ _ _ HV). repeat pleaf. apply osim_ok, msim_put; auto.
Qed.
Lemma build_operators_sim same (V : T1) (V' : T2) W W' sq : tsw V V' -> lsim W W' ->
  osim msim (build_operators same V W sq) (build_operators same V' W' sq).
Proof.
  intros HV HW. unfold build_operators. rewrite (tsw_order _ _ HV). apply (osim_bind msim).
  - apply for_sim; auto with par. intros ii m m' _ Hm. apply for_sim; auto. intros jj m1 m2 _ Hm12. pleaf. apply Build_map_sim; auto.
  - intros m m' Hm. apply for_sim; auto. intros jj m1 m2 _ Hm12. pleaf. apply Build_map_sim; auto.
Qed.
Lemma pp_M_sim (V : T1) (V' : T2) mp mp' sq dW dW' r c i : tsw V V' -> msim mp mp' -> lsim dW dW' ->
  osim tsw (pp_M V mp sq dW r c i) (pp_M V' mp' sq dW' r c i).
Proof.
  intros HV Hm HD. unfold pp_M. rewrite (tsw_order _ _ HV). repeat pleaf. apply (osim_bind tsw).
  - apply for_sim; auto. intros j A B _ HAB. repeat pleaf.
  - intros A B HAB. apply for_sim; auto. intros j A' B' _ HAB'. repeat pleaf.
Qed.
Notation ppR := (prodR (prodR (prodR (prodR lsim lsim) lsim) tsw) eq).
Lemma PP_mode_sim (V : T1) (V' : T2) mp mp' W0 W0' l l' r r' regul regul' sq i a b : tsw V V' -> msim mp mp' -> lsim W0 W0' -> tsw regul regul' -> ppR a b ->
  osim ppR (PP_mode LA V mp W0 l r regul sq i a) (PP_mode ULA V' mp' W0' l' r' regul' sq i b).
Proof.
  intros HV Hm HW0 HR. destruct a as [[[[W G] D] S] sa], b as [[[[W' G'] D'] S'] sb]. intros [[[[HW HG] HD] HS] Hq]; cbn [fst snd] in *; subst sb.
  unfold PP_mode. rewrite (tsw_order _ _ HV), (tsw_lens _ _ HV). repeat pleaf.
  match goal with p : (buf nat * buf nat)%type |- _ => destruct p as [index lH] end.
  eapply osim_bind; [apply pp_M_sim; eauto|]. intros M M' HM.
  eapply osim_bind; [apply gram_index_sim; eauto|]. intros Sa Sb HSa.
  eapply osim_bind; [apply add_regul_sim; eauto|]. intros Sc Sd HSc. repeat pleaf.
  eapply osim_bind; [apply gradsubprob_sim; eauto|]. intros g g' Hg. repeat pleaf.
  eapply osim_bind; [apply SVD_solve_mod_sim; eauto|]. intros [A Da] [A' Db] [HA HDa]; cbn [fst snd] in *. repeat pleaf.
  apply osim_ok; split; [split; [split; [split|]|]|]; auto.
Qed.
Lemma PP_sweep_sim (V : T1) (V' : T2) mp mp' W0 W0' l l' r r' regul regul' sq W W' G G' D D' S S' sv :
  tsw V V' -> msim mp mp' -> lsim W0 W0' -> tsw regul regul' -> lsim W W' -> lsim G G' -> lsim D D' -> tsw S S' ->
  osim ppR (PP_sweep LA V mp W0 l r regul sq W G D S sv) (PP_sweep ULA V' mp' W0' l' r' regul' sq W' G' D' S' sv).
Proof.
  intros HV Hm HW0 HR HW HG HD HS. unfold PP_sweep. rewrite (tsw_order _ _ HV). apply (osim_bind ppR).
  - apply for_sim; [|split; [split; [split; [split|]|]|]; cbn [fst snd]; auto with par]. intros i a b _ Hab. apply PP_mode_sim; auto.
  - intros [[[[Wa Ga] Da] Sa] sa] [[[[Wb Gb] Db] Sb] sb] [[[[HWa HGa] HDa] HSa] Hq]; cbn [fst snd] in *; subst sb.
    eapply osim_bind; [apply Normalize_sim; eauto|]. intros. apply osim_ok. split; [split; [split; [split|]|]|]; auto.
Qed.
End Par3.
