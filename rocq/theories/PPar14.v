(** The low-rank optimizers of src/optimizer in lockstep with the number type with one element (see PPar13.v). *)
From Coq Require Import List ZArith QArith Lia Bool Arith.
From Verif Require Import Base Num Tensor Spec Spec3 MCommon MCP MOpt MOptLR PBase PTensor PPar PPar2 PPar3 PMat POptStep POptLR PPar13.
Import ListNotations.
Local Close Scope Q_scope.

(** the shape of the right-hand side is that of M *)
Lemma rhs_shape {N : num} (M Q r : tensor N) a b x y : lens M = [a; b] -> lens Q = [x; y] ->
  assign false Q sij [mkTerm n1 [(M, sij)]; mkTerm (nopp n1) [(Q, sij)]] = Ok r -> x = a /\ y = b.
Proof.
  unfold assign. intros HM HQ E. destruct (_ && _) eqn:Ec; [|discriminate]. clear E. apply andb_prop in Ec as [_ Ec].
  cbn [forallb] in Ec. apply andb_prop in Ec as [Ec _]. unfold term_ok in Ec. apply andb_prop in Ec as [_ E2].
  unfold consistent, dims in E2. cbn -[Nat.eqb] in E2. rewrite HM, HQ in E2. cbn -[Nat.eqb] in E2. rewrite !andb_true_iff in E2.
  destruct E2 as (_ & _ & H1 & H2 & _). apply Nat.eqb_eq in H1, H2. auto.
Qed.
Lemma tl_get {N1 N2 : num} (W : list (tensor N1)) (W' : list (tensor N2)) i : Forall2 tsim W W' -> osim tsim (lget W i) (lget W' i).
Proof.
  intros H. revert i. induction H; intros i b; destruct i; cbn; try discriminate.
  - intros [= <-]. eauto.
  - apply IHForall2.
Qed.
Lemma tl_put {N1 N2 : num} (W : list (tensor N1)) (W' : list (tensor N2)) i A B : Forall2 tsim W W' -> tsim A B -> osim (Forall2 tsim) (lput W i A) (lput W' i B).
Proof.
  intros H HA. unfold lput. assert (Hlen : length W = length W') by (clear -H; induction H; cbn; congruence). rewrite Hlen. destruct (_ <? _)%nat; [|apply osim_err]. apply osim_ok.
  clear -H HA. revert i. induction H; intros [|i]; cbn; constructor; auto.
Qed.
Lemma tl_weak {N1 N2 : num} (W : list (tensor N1)) (W' : list (tensor N2)) : lsim W W' -> Forall2 tsim W W'.
Proof. induction 1; constructor; auto with par. Qed.

Section S.
Context {N : num} (LA : lapack N) (Hsh : tri_shaped (cholesky LA) (solve_tri LA)) (Hlow : low_shaped (svd LA) (qr_q LA) (rnd LA)).
Notation T1 := (tensor N).
Notation T2 := (tensor Unum).
Context (V : T1) (R : nat).
Notation U := (cp V).
Context (HV : wf V).
Let HVU : tsw V U := cp_sim V HV.
Notation optR := (optR V R).
Context (rs : bool) (k : nat) (HkR : (k <= R)%nat) (HkV : forall n, (n < order V)%nat -> (k <= nth n (lens V) 0)%nat).

Notation t3 := (fun (a : T1 * T1 * T1) (b : T2 * T2 * T2) => tsim (fst (fst a)) (fst (fst b)) /\ tsim (snd (fst a)) (snd (fst b)) /\ tsim (snd a) (snd b)).
Notation both r c := (fun (x : T1) (y : T2) => is_mat x r c /\ is_mat y r c).
Lemma both_assign acc (C : T1) (C' : T2) r c s ts ts' : is_mat C r c -> is_mat C' r c -> Forall2 termsim ts ts' -> osim (both r c) (assign acc C s ts) (assign acc C' s ts').
Proof.
  intros HC HC' Ht.
  assert (Hs : osim tsw (assign acc C s ts) (assign acc C' s ts')) by (apply assign_sim; [unfold tsim; rewrite (proj1 HC), (proj1 HC'); reflexivity|exact Ht]).
  intros y Ey. destruct (Hs y Ey) as (x & Ex & Hxy). exists x. split; [exact Ex|]. apply assign_lens in Ey. rewrite (proj1 HC') in Ey.
  split; [apply (tsw_mat _ _ _ _ Hxy Ey)|split; [exact Ey|apply Hxy]].
Qed.
Lemma both_sim (x : T1) (y : T2) r c : is_mat x r c -> is_mat y r c -> tsim x y.
Proof. intros [H _] [H' _]. unfold tsim. rewrite H, H'. reflexivity. Qed.
Notation shaped r c := (fun (a : T1 * T1 * T1) (b : T2 * T2 * T2) =>
  let '(u, s, v) := a in let '(u', s', v') := b in (is_mat u r k /\ lens s = [k] /\ wf s /\ is_mat v k c) /\ (is_mat u' r k /\ lens s' = [k] /\ wf s' /\ is_mat v' k c)).
Lemma randomized_svd_sim (X : T1) (X' : T2) seed r : is_mat X r R -> is_mat X' r R -> (k <= r)%nat ->
  osim (shaped r R) (randomized_svd LA X seed k 1) (randomized_svd ULA2 X' seed k 1).
Proof.
  intros HX HX' Hk. unfold randomized_svd. cbv zeta. rewrite (is_mat_ncol _ _ _ HX), (is_mat_nrow _ _ _ HX), (is_mat_ncol _ _ _ HX'), (is_mat_nrow _ _ _ HX').
  destruct Hlow as (G1 & G2 & G3). destruct ULA2_low as (K1 & K2 & K3).
  assert (HR1 := G3 seed R k). assert (HR2 := K3 seed R k). assert (HQ1 := G2 _ _ _ HR1 HkR). assert (HQ2 := K2 _ _ _ HR2 HkR).
  assert (HXs := both_sim _ _ _ _ HX HX').
  eapply (osim_bind (prodR (both R k) (both R k))).
  { apply for_sim; [|split; split; assumption]. intros j [x q] [x' q'] _ [[Hx Hx'] [Hq Hq']]. cbn [fst snd] in Hx, Hx', Hq, Hq'. assert (Hqs := both_sim _ _ _ _ Hq Hq').
    eapply osim_bind; [apply (both_assign _ _ _ R k); [exact Hx|exact Hx'|facs_tac]|]. intros y y' [Hy Hy']. apply osim_ok. split; cbn [fst snd]; split; auto. }
  intros [x q] [x' q'] [_ [Hq Hq']]. cbn [fst snd] in Hq, Hq'. assert (Hqs := both_sim _ _ _ _ Hq Hq').
  eapply osim_bind; [apply (both_assign _ _ _ r k); [apply zeros_mat|apply zeros_mat|facs_tac]|]. intros B B' [HB HB'].
  assert (D1 := G1 B r k k HB Hk (le_n k)). assert (D2 := K1 B' r k k HB' Hk (le_n k)).
  destruct (svd LA B k) as [[u s] v]. destruct (svd ULA2 B' k) as [[u' s'] v']. destruct D1 as (D1 & D1b & D1c & D1d). destruct D2 as (D2 & D2b & D2c & D2d).
  assert (Hvs := both_sim _ _ _ _ D1d D2d).
  eapply osim_bind; [apply (both_assign _ _ _ k R); [apply zeros_mat|apply zeros_mat|facs_tac]|]. intros w w' [Hw Hw']. apply osim_ok. auto 10.
Qed.
Lemma get_rankR_sim M M' A A' S S' r random : tsw M M' -> tsim A A' -> tsw S S' -> lens M' = [r; R] -> lens S' = [R; R] -> (k <= r)%nat ->
  osim t3 (get_rankR_update_cholesky LA k M A S random) (get_rankR_update_cholesky ULA2 k M' A' S' random).
Proof.
  intros HM HA HS EM ES Hk. unfold get_rankR_update_cholesky. cbv zeta.
  assert (Sm := tsw_mat _ _ _ _ HS ES). assert (Sm' : is_mat S' R R) by (split; [exact ES|apply HS]).
  set (L := cholesky LA S). set (L' := cholesky ULA2 S').
  assert (HL : is_mat L R R) by (apply (proj1 Hsh); auto). assert (HL' : is_mat L' R R) by (apply (proj1 ULA2_tri); auto). clearbody L L'.
  assert (En : nrow A = nrow A') by (unfold nrow; rewrite HA; reflexivity).
  eapply osim_bind_eq.
  { unfold matrixDot. rewrite En, (tsw_ncol _ _ HS). apply assign_sim; [auto with par|facs_tac]. }
  intros q q' Eq Hq. unfold matrixDot in Eq. apply assign_lens in Eq. cbn [lens zeros tabulate] in Eq.
  eapply osim_bind_eq; [apply assign_sim; [auto with par|facs_tac]|]. intros h h' Eh Hh.
  destruct (rhs_shape _ _ _ _ _ _ _ EM Eq Eh) as [E1 E2]. apply assign_lens in Eh. rewrite Eq, E1, E2 in Eh.
  assert (Hhm := tsw_mat _ _ _ _ Hh Eh). assert (Hhm' : is_mat h' r R) by (split; [exact Eh|apply Hh]).
  assert (HX : is_mat (solve_tri LA h L true false true) r R) by (apply (proj2 Hsh); auto).
  assert (HX' : is_mat (solve_tri ULA2 h' L' true false true) r R) by (apply (proj2 ULA2_tri); auto).
  set (X := solve_tri LA h L true false true) in *. set (X' := solve_tri ULA2 h' L' true false true) in *. clearbody X X'.
  assert (Hfin : forall (u : T1) (s : T1) (v : T1) (u' s' v' : T2), is_mat u r k /\ lens s = [k] /\ wf s /\ is_mat v k R -> is_mat u' r k /\ lens s' = [k] /\ wf s' /\ is_mat v' k R ->
    t3 (u, s, solve_tri LA v L true false false) (u', s', solve_tri ULA2 v' L' true false false)).
  { intros u s v u' s' v' (K1 & K2 & _ & K4) (K1' & K2' & _ & K4'). cbn [fst snd]. split; [|split].
    - unfold tsim. rewrite (proj1 K1), (proj1 K1'). reflexivity.
    - unfold tsim. rewrite K2, K2'. reflexivity.
    - unfold tsim. rewrite (proj1 (proj2 Hsh v L k R true false false K4 HL)), (proj1 (proj2 ULA2_tri v' L' k R true false false K4' HL')). reflexivity. }
  destruct random as [seed|].
  - eapply osim_bind; [apply (randomized_svd_sim _ _ _ r); assumption|]. intros [[u s] v] [[u' s'] v'] [KX KX'].
    apply osim_ok. apply Hfin; assumption.
  - cbn [bind]. assert (KX := proj1 Hlow X r R k HX Hk HkR). assert (KX' := proj1 ULA2_low X' r R k HX' Hk HkR).
    destruct (svd LA X k) as [[u s] v]. destruct (svd ULA2 X' k) as [[u' s'] v']. apply osim_ok. apply Hfin; assumption.
Qed.
Definition lowR (a : lowrank N) (b : lowrank Unum) : Prop := tsim (lU a) (lU b) /\ tsim (lS a) (lS b) /\ tsim (lVT a) (lVT b) /\ lseed a = lseed b.
Lemma lr_update_sim acc o regul regul' M M' n ref ref' a b lo lo' : tsw regul regul' -> tsw M M' -> Forall2 tsim ref ref' -> optR a b -> lowR lo lo' ->
  osim (prodR optR lowR) (lr_update LA k rs acc o regul M n ref a lo) (lr_update ULA2 k rs acc o regul' M' n ref' b lo').
Proof.
  intros Hr HM Href (H1 & H2 & H3 & H4 & H5 & H6) (L1 & L2 & L3 & L4). unfold lr_update.
  eapply osim_bind_eq; [apply update_S_sim; eauto|]. intros S S' ES HS. apply update_S_lens in ES. rewrite H6 in ES.
  eapply osim_bind_eq; [apply lget_sim; eauto|]. intros g g' Eg Hg.
  eapply osim_bind_eq; [apply lget_sim; eauto|]. intros Wn Wn' Ew Hw.
  eapply osim_bind_eq; [apply gradsubprob_sim; eauto|]. intros g2 g2' Eg2 Hg2.
  destruct (mats_nth V R _ _ _ H5 Eg) as (r & Er & Hn & Er'). destruct (mats_nth V R _ _ _ H4 Ew) as (r2 & Ew2 & _ & Ew2').
  assert (EM := grad_shape _ _ _ _ _ _ _ Er Eg2).
  assert (Eg2' : lens g2' = [r; R]) by (unfold gradsubprob in Eg2; apply assign_lens in Eg2; congruence).
  eapply osim_bind_eq; [apply lput_sim; eauto|]. intros G G' EG HG.
  eapply osim_bind; [apply tl_get; eauto|]. intros A A' HA. rewrite L4.
  eapply osim_bind; [apply (get_rankR_sim _ _ _ _ _ _ r); eauto; rewrite Er'; apply HkV; exact Hn|]. intros [[u s] v] [[u' s'] v'] (K1 & K2 & K3). cbn [fst snd] in K1, K2, K3.
  eapply (osim_bind (fun x y => tsw x y /\ lens y = lens Wn')).
  { apply osim_and.
    - destruct acc; apply assign_sim; [auto with par|facs_tac|auto with par|facs_tac].
    - intros y Ey. destruct acc; apply assign_lens in Ey; exact Ey. }
  intros X X' [HX EX].
  eapply osim_bind_eq; [apply lput_sim; eauto|]. intros Y Y' EY HY. apply osim_ok.
  split; cbn [fst snd]; [|split; [exact K1|split; [exact K2|split; [exact K3|cbn [lseed]; congruence]]]].
  split; [exact HY|]. split; [exact HG|]. split; [exact HS|]. split; [|split; [|exact ES]].
  - apply (mats_lput V R _ _ _ _ H4 EY). rewrite <- Ew2'. split; [rewrite EX; exact Ew2|apply HX].
  - apply (mats_lput V R _ _ _ _ H5 EG). rewrite <- Er'. split; [exact Eg2'|apply Hg2].
Qed.

(** ** CPDTLROptimizer *)
Definition ocR (a : option T1) (b : option T2) : Prop := match a, b with Some A, Some B => tsw A B | None, None => True | _, _ => False end.
Definition dlR (a : dl_st N) (b : dl_st Unum) : Prop :=
  dtR V R (dlb a) (dlb b) /\ (dl_count a, dl_flag a) = (dl_count b, dl_flag b) /\ lowR (dl_low a) (dl_low b) /\ ocR (dl_c1 a) (dl_c1 b) /\ ocR (dl_c2 a) (dl_c2 b).
Lemma dl_update_cached_sim sq l lo lo' c c' : lowR lo lo' -> ocR c c' ->
  osim (prodR tsw lowR) (dl_update_cached V sq l lo c) (dl_update_cached U sq l lo' c').
Proof.
  intros (L1 & L2 & L3 & L4) Hc. unfold dl_update_cached. change (order (cp V)) with (order V). apply osim_bind_same. intros sx _.
  eapply osim_bind; [apply assign_sim; [exact L1|facs_tac]|]. intros u u' Hu.
  destruct c as [c|], c' as [c'|]; try contradiction; cbn [of_opt bind]; [|apply osim_err].
  apply osim_bind_same. intros sV _.
  eapply osim_bind; [apply assign_sim; [apply tsw_sim; exact Hc|facs_tac]|]. intros d d' Hd. apply osim_ok. split; [exact Hd|].
  split; [apply tsw_sim; exact Hu|]. split; [exact L2|]. split; [exact L3|exact L4].
Qed.
Lemma dl_map_init_sim a b l : dlR a b ->
  osim (prodR tsw (prodR (prodR lowR ocR) ocR)) (dl_map_init V a l) (dl_map_init U b l).
Proof.
  destruct a as [a ca fa la c1 c2], b as [b cb fb lb c1' c2']. intros ([Hab E] & E2 & Hl & H1 & H2). cbn [dlb dl_count dl_flag dl_low dl_c1 dl_c2] in *.
  injection E2 as -> ->. unfold dl_map_init. cbn [dlb dl_count dl_flag dl_low dl_c1 dl_c2]. change (order U) with (order V).
  assert (Ef : dfirst a = dfirst b) by congruence. assert (Es : dseq a = dseq b) by congruence. rewrite Ef, Es. clear Ef Es E. cbv zeta. destruct (_ && _).
  - apply osim_bind_same. intros sq _. eapply osim_bind; [apply node_lens_sim; apply Hab|]. intros ls ? _.
    eapply osim_bind; [apply dl_update_cached_sim; [exact Hl|destruct (dfirst b); assumption]|]. intros [c lo] [c' lo'] [Hc Hlo]. cbn [fst snd] in Hc, Hlo.
    apply osim_ok. split; [exact Hc|]. split; [split; [exact Hlo|]|]; cbn [fst snd]; destruct (dfirst b); assumption.
  - eapply osim_bind; [apply fresh_top_sim; [exact HV|apply Hab]|]. intros T T' HT. apply osim_ok. split; [exact HT|].
    split; [split; [exact Hl|]|]; cbn [fst snd]; destruct (dfirst b); assumption.
Qed.
Notation stR := (prodR (prodR optR msim) (prodR lowR (@eq bool))).
Lemma dl_mode_sim fuel regul regul' t indexes first count i a b : tsw regul regul' -> stR a b ->
  osim stR (dl_mode LA fuel k rs V regul t indexes first count i a) (dl_mode ULA2 fuel k rs U regul' t indexes first count i b).
Proof.
  destruct a as [[a mp] [lo fl]], b as [[b mp'] [lo' fl']]. intros Hr [[Hab Hm] [Hlo Hfl]]. cbn [fst snd] in Hab, Hm, Hlo, Hfl. subst fl'.
  unfold dl_mode. change (order U) with (order V).
  eapply osim_bind; [apply leaf_M_sim; [apply Hab|exact Hm]|]. intros [m1 M] [m2 M'] [Hm1 HM]. cbn [fst snd] in Hm1, HM.
  apply osim_bind_same. intros n _. destruct (_ && _).
  - eapply osim_bind; [apply lr_update_sim; eauto; apply tl_weak; apply Hab|]. intros [x lx] [y ly] [Hxy Hl]. cbn [fst snd] in Hxy, Hl. apply osim_ok. split; split; auto.
  - eapply osim_bind; [apply opt_update_sim; eauto|]. intros x y Hxy. apply osim_ok. split; split; auto.
Qed.
Lemma dl_step_sim fuel regul regul' a b : tsw regul regul' -> dlR a b ->
  osim (prodR eq dlR) (dl_step LA fuel k rs V regul a) (dl_step ULA2 fuel k rs U regul' b).
Proof.
  intros Hr H. assert (H0 := H). destruct a as [a ca fa la c1 c2], b as [b cb fb lb c1' c2']. destruct H as ([Hab E] & E2 & Hl & H1 & H2). cbn [dlb dl_count dl_flag dl_low dl_c1 dl_c2] in *.
  injection E2 as -> ->. unfold dl_step. change (order U) with (order V).
  destruct a as [st t top sq fi i1 i2 l1 l2 sp], b as [st' t' top' sq' fi' i1' i2' l1' l2' sp'].
  cbn [ds dtree dtop dseq dfirst dix1 dix2 dl1 dl2 dspecial] in Hab, E. injection E as -> -> -> -> -> -> -> -> ->.
  cbn [dlb dl_count dl_flag dl_low dl_c1 dl_c2 ds dtree dtop dseq dfirst dix1 dix2 dl1 dl2 dspecial]. cbv zeta.
  eapply osim_bind; [apply dl_map_init_sim; exact H0|]. intros [T [[lo d1] d2]] [T' [[lo' d1'] d2']] [HT [[Hlo K1] K2]]. cbn [fst snd] in HT, Hlo, K1, K2.
  destruct (dt_range _ _ _) as [x y].
  eapply osim_bind; [apply (for_sim stR); [intros; apply dl_mode_sim; eauto|split; split; cbn [fst snd]; auto; apply msim_put; auto with par]|].
  intros [[s1 m1] [lo1 f1]] [[s2 m2] [lo2 f2]] [[Hs _] [Hlo2 Hf]]. cbn [fst snd] in Hs, Hlo2, Hf. subst f2.
  destruct (_ && _).
  - destruct (if negb _ then _ else _) as [p1 p2]. apply osim_bind_same. intros ix1 _. apply osim_bind_same. intros ix2 _. apply osim_ok. split; [reflexivity|].
    split; [split; [exact Hs|reflexivity]|]. split; [reflexivity|]. auto.
  - apply osim_ok. split; [reflexivity|]. split; [split; [exact Hs|reflexivity]|]. split; [reflexivity|]. auto.
Qed.

(** ** CPMSDTLROptimizer *)
Definition mlR (a : ml_st N) (b : ml_st Unum) : Prop :=
  msR V R (mlb a) (mlb b) /\ (ml_flag a, ml_is a) = (ml_flag b, ml_is b) /\ lowR (ml_low a) (ml_low b) /\ Forall2 tsim (ml_ct a) (ml_ct b) /\ Forall2 tsim (ml_old a) (ml_old b).
Lemma ml_update_cached_sim sq l lo lo' c c' : lowR lo lo' -> tsim c c' ->
  osim (prodR tsw lowR) (ml_update_cached k V sq l lo c) (ml_update_cached k U sq l lo' c').
Proof.
  intros (L1 & L2 & L3 & L4) Hc. unfold ml_update_cached. change (order U) with (order V). change (lens U) with (lens V). apply osim_bind_same. intros s _.
  eapply osim_bind; [apply assign_sim; [exact L1|facs_tac]|]. intros u u' Hu.
  do 6 (apply osim_bind_same; intros ? _).
  eapply osim_bind; [apply assign_sim; [auto with par|facs_tac]|]. intros e e' He.
  eapply osim_bind; [apply assign_sim; [exact Hc|facs_tac]|]. intros d d' Hd. apply osim_ok. split; [exact Hd|].
  split; [apply tsw_sim; exact Hu|]. split; [exact L2|]. split; [exact L3|exact L4].
Qed.
Notation miR := (prodR tsw (prodR (prodR (prodR lowR (@eq (list bool))) (Forall2 tsim)) (Forall2 tsim))).
Lemma ml_map_init_sim a b l : mlR a b -> osim miR (ml_map_init k V a l) (ml_map_init k U b l).
Proof.
  destruct a as [a fa la ia ca oa], b as [b fb lb ib cb ob]. intros ([Hab E] & E2 & Hl & H1 & H2). cbn [mlb ml_flag ml_low ml_is ml_ct ml_old] in *.
  injection E2 as -> ->. unfold ml_map_init. cbn [mlb ml_flag ml_low ml_is ml_ct ml_old]. change (order U) with (order V). cbv zeta.
  assert (Es : mseq a = mseq b) by congruence. rewrite Es. clear Es E. apply osim_bind_same. intros isc _. destruct (_ && _).
  - apply osim_bind_same. intros sq _. eapply osim_bind; [apply node_lens_sim; apply Hab|]. intros ls ? _.
    eapply osim_bind; [apply tl_get; exact H1|]. intros c c' Hc.
    eapply osim_bind; [apply ml_update_cached_sim; eauto|]. intros [d lo] [d' lo'] [Hd Hlo]. cbn [fst snd] in Hd, Hlo.
    eapply osim_bind; [apply tl_put; [exact H1|apply tsw_sim; exact Hd]|]. intros ct ct' Hct.
    eapply osim_bind; [apply lget_sim; apply Hab|]. intros w w' Hw.
    eapply osim_bind; [apply tl_put; [exact H2|apply tsw_sim; exact Hw]|]. intros od od' Hod. apply osim_bind_same. intros is _.
    apply osim_ok. repeat split; cbn [fst snd]; auto; apply Hd || apply Hlo.
  - eapply osim_bind; [apply fresh_top_sim; [exact HV|apply Hab]|]. intros T T' HT.
    eapply osim_bind; [apply tl_put; [exact H1|apply tsw_sim; exact HT]|]. intros ct ct' Hct.
    eapply osim_bind; [apply lget_sim; apply Hab|]. intros w w' Hw.
    eapply osim_bind; [apply tl_put; [exact H2|apply tsw_sim; exact Hw]|]. intros od od' Hod. apply osim_bind_same. intros is _.
    apply osim_ok. repeat split; cbn [fst snd]; auto; apply HT || apply Hl.
Qed.
Lemma ml_mode_sim fuel regul regul' t indexes is old old' i a b : tsw regul regul' -> Forall2 tsim old old' -> stR a b ->
  osim stR (ml_mode LA fuel k rs V regul t indexes is old i a) (ml_mode ULA2 fuel k rs U regul' t indexes is old' i b).
Proof.
  destruct a as [[a mp] [lo fl]], b as [[b mp'] [lo' fl']]. intros Hr Hold [[Hab Hm] [Hlo Hfl]]. cbn [fst snd] in Hab, Hm, Hlo, Hfl. subst fl'.
  unfold ml_mode. change (order U) with (order V).
  eapply osim_bind; [apply leaf_M_sim; [apply Hab|exact Hm]|]. intros [m1 M] [m2 M'] [Hm1 HM]. cbn [fst snd] in Hm1, HM.
  apply osim_bind_same. intros n _. apply osim_bind_same. intros isn _. destruct (_ || _).
  - eapply osim_bind; [apply opt_update_sim; eauto|]. intros x y Hxy. apply osim_ok. split; split; auto.
  - eapply osim_bind; [apply lr_update_sim; eauto|]. intros [x lx] [y ly] [Hxy Hl]. cbn [fst snd] in Hxy, Hl. apply osim_ok. split; split; auto.
Qed.
Lemma ml_step_sim fuel regul regul' a b : tsw regul regul' -> mlR a b ->
  osim (prodR eq mlR) (ml_step LA fuel k rs V regul a) (ml_step ULA2 fuel k rs U regul' b).
Proof.
  intros Hr H. assert (H0 := H). destruct a as [a fa la ia ca oa], b as [b fb lb ib cb ob]. destruct H as ([Hab E] & E2 & Hl & H1 & H2). cbn [mlb ml_flag ml_low ml_is ml_ct ml_old] in *.
  injection E2 as -> ->. unfold ml_step. change (order U) with (order V).
  destruct a as [st t top sq ix l], b as [st' t' top' sq' ix' l']. cbn [mss mtree mtop mseq mix mleft] in Hab, E. injection E as -> -> -> -> ->.
  cbn [mlb ml_flag ml_low ml_is ml_ct ml_old mss mtree mtop mseq mix mleft]. cbv zeta. apply osim_bind_same. intros indexes _.
  eapply osim_bind; [apply ml_map_init_sim; exact H0|]. intros [T [[[lo is] ct] od]] [T' [[[lo' is'] ct'] od']] [HT [[[Hlo His] Hct] Hod]]. cbn [fst snd] in HT, Hlo, His, Hct, Hod. subst is'.
  eapply osim_bind; [apply (for_sim stR); [intros; apply ml_mode_sim; eauto|split; split; cbn [fst snd]; auto; apply msim_put; auto with par]|].
  intros [[s1 m1] [lo1 f1]] [[s2 m2] [lo2 f2]] [[Hs _] [Hlo2 Hf]]. cbn [fst snd] in Hs, Hlo2, Hf. subst f2.
  apply osim_ok. split; [reflexivity|]. split; [split; [exact Hs|reflexivity]|]. split; [reflexivity|]. auto.
Qed.
End S.
