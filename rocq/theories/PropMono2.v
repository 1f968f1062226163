(** Property C56: exact optimizer steps never increase the regularised objective *)
From Coq Require Import List ZArith QArith Lia Bool Arith Permutation Ring Reals Lra.
From Verif Require Import Base Num NumR Tensor Spec Spec3 Spec10 Spec11 MCommon MCP MOpt MOptLR PBase PTensor PSum PMttkrp PMat PMatAlg PResid PGrad PSolve PRank POptStep POptLR PRank2 PALS PMono PMono2 PropOpt PropOptLR PropRank PropGS.
Import ListNotations.
Local Close Scope Q_scope.
Local Close Scope R_scope.
Local Open Scope nat_scope.

Section E.
Context {N : num} (chol : tensor N -> tensor N) (tri : tensor N -> tensor N -> bool -> bool -> bool -> tensor N).
Lemma along_app lambda V R a b st : exact_along chol tri lambda V R (a ++ b) st ->
  exact_along chol tri lambda V R a st /\ exact_along chol tri lambda V R b (ls_modes (chol_solve chol tri) lambda V R a st).
Proof.
  intros H. split.
  - intros x n y E. subst a. rewrite <- app_assoc in H. exact (H x n (y ++ b) eq_refl).
  - intros x n y E. subst b. rewrite app_assoc in H. specialize (H (a ++ x) n y eq_refl). unfold ls_modes in *. rewrite fold_left_app in H. exact H.
Qed.
Lemma acts_app trunc k lambda V R a b st : acts_exact chol tri trunc k lambda V R (a ++ b) st ->
  acts_exact chol tri trunc k lambda V R a st /\
  acts_exact chol tri trunc k lambda V R b (lr_acts (chol_solve chol tri) (lr_inc trunc chol tri k) lambda V R a st).
Proof.
  intros H. split.
  - intros x n y E. subst a. rewrite <- app_assoc in H. exact (H x n (y ++ b) eq_refl).
  - intros x n y E. subst b. rewrite app_assoc in H. specialize (H (a ++ x) n y eq_refl). unfold lr_acts in *. rewrite fold_left_app in H. exact H.
Qed.
End E.
Lemma half_in o k n : 2 <= o -> In n (dt_half o k) -> n < o.
Proof. intros Ho. unfold dt_half. destruct (Nat.even k); intros H; [apply in_seq in H; lia|destruct H as [<-|[]]; lia]. Qed.
Lemma after_in o l n : l < o -> In n (after o l) -> n < o.
Proof. intros Hl H. unfold after in H. apply in_app_or in H. destruct H as [H|H]; apply in_seq in H; lia. Qed.

(** the exactness hypotheses are about the system matrices met during the first k+1 steps *)
Theorem C56_two_subtree : forall (N : num), ring_laws N -> ord_laws N ->
  forall (LA : lapack N) (V : tensor N) (W G : list (tensor N)) (S0 : tensor N) (R : nat) (lambda : N) (regul : tensor N) (fuel k : nat),
  tri_shaped (cholesky LA) (solve_tri LA) ->
  3 <= order V <= 31 -> order V <= fuel + 1 -> factors_ok V W R -> mats_ok V G R -> lens S0 = [R; R] -> mk_regul R lambda = Ok regul ->
  exact_along (cholesky LA) (solve_tri LA) lambda V R (dt_schedule (order V) (S k)) (W, G) ->
  exists s0 q s q' s', dt_new (order V) (mkOpt W G S0) = Ok s0 /\
    steps k (dt_step LA fuel V regul) s0 = Ok (q, s) /\ steps (S k) (dt_step LA fuel V regul) s0 = Ok (q', s') /\
    nle (objective lambda V (oW (ds s')) R) (objective lambda V (oW (ds s)) R).
Proof.
  intros N RL OL LA V W G S0 R lambda regul fuel k Hsh Ho Hf HW HG HS Er He.
  destruct (C21_two_subtree_optimizer_exact N RL LA V W G S0 R lambda regul fuel k Hsh Ho Hf HW HG HS Er) as (s0 & q & s & E0 & E1 & E2).
  destruct (C21_two_subtree_optimizer_exact N RL LA V W G S0 R lambda regul fuel (S k) Hsh Ho Hf HW HG HS Er) as (s0' & q' & s' & E0' & E1' & E2').
  rewrite E0 in E0'. injection E0' as <-. exists s0, q, s, q', s'. repeat (split; [assumption|]).
  unfold dt_schedule in He, E2'. rewrite flat_map_seq_S in He, E2'. rewrite ls_modes_app in E2'. apply along_app in He. destruct He as [H1 H2].
  fold (dt_schedule (order V) k) in H1, H2, E2'.
  assert (Hi : forall n, In n (dt_schedule (order V) k) -> n < order V).
  { intros n Hn. apply in_flat_map in Hn. destruct Hn as (j & _ & Hn). eapply half_in; eauto; lia. }
  destruct (modes_mono RL OL (cholesky LA) (solve_tri LA) lambda V R _ W G HW Hi H1) as [H3 _]. cbv zeta in H3. rewrite <- E2 in H2, H3, E2'. cbn [fst] in H3.
  assert (Hi2 : forall n, In n (dt_half (order V) k) -> n < order V) by (intros n Hn; eapply half_in; eauto; lia).
  destruct (modes_mono RL OL (cholesky LA) (solve_tri LA) lambda V R (dt_half (order V) k) (oW (ds s)) (oG (ds s)) H3 Hi2 H2) as [_ H4].
  cbv zeta in H4. rewrite <- E2' in H4. exact H4.
Qed.
Theorem C56_multi_sweep : forall (N : num), ring_laws N -> ord_laws N ->
  forall (LA : lapack N) (V : tensor N) (W G : list (tensor N)) (S0 : tensor N) (R : nat) (lambda : N) (regul : tensor N) (fuel k : nat),
  tri_shaped (cholesky LA) (solve_tri LA) ->
  3 <= order V <= 31 -> order V <= fuel + 1 -> factors_ok V W R -> mats_ok V G R -> lens S0 = [R; R] -> mk_regul R lambda = Ok regul ->
  exact_along (cholesky LA) (solve_tri LA) lambda V R (ms_schedule (order V) (S k)) (W, G) ->
  exists s0 q s q' s', ms_new (order V) (mkOpt W G S0) = Ok s0 /\
    steps k (ms_step LA fuel V regul) s0 = Ok (q, s) /\ steps (S k) (ms_step LA fuel V regul) s0 = Ok (q', s') /\
    nle (objective lambda V (oW (mss s')) R) (objective lambda V (oW (mss s)) R).
Proof.
  intros N RL OL LA V W G S0 R lambda regul fuel k Hsh Ho Hf HW HG HS Er He.
  destruct (C20_multi_sweep_optimizer_exact N RL LA V W G S0 R lambda regul fuel k Hsh Ho Hf HW HG HS Er) as (s0 & q & s & E0 & E1 & E2).
  destruct (C20_multi_sweep_optimizer_exact N RL LA V W G S0 R lambda regul fuel (S k) Hsh Ho Hf HW HG HS Er) as (s0' & q' & s' & E0' & E1' & E2').
  rewrite E0 in E0'. injection E0' as <-. exists s0, q, s, q', s'. repeat (split; [assumption|]).
  unfold ms_schedule in He, E2'. rewrite flat_map_seq_S in He, E2'. rewrite ls_modes_app in E2'. apply along_app in He. destruct He as [H1 H2].
  fold (ms_schedule (order V) k) in H1, H2, E2'.
  assert (Hi : forall n, In n (ms_schedule (order V) k) -> n < order V).
  { intros n Hn. apply in_flat_map in Hn. destruct Hn as (j & _ & Hn). eapply after_in; [|exact Hn]. lia. }
  destruct (modes_mono RL OL (cholesky LA) (solve_tri LA) lambda V R _ W G HW Hi H1) as [H3 _]. cbv zeta in H3. rewrite <- E2 in H2, H3, E2'. cbn [fst] in H3.
  assert (Hi2 : forall n, In n (after (order V) (order V - 1 - k mod order V)) -> n < order V) by (intros n Hn; eapply after_in; [|exact Hn]; lia).
  destruct (modes_mono RL OL (cholesky LA) (solve_tri LA) lambda V R _ (oW (mss s)) (oG (mss s)) H3 Hi2 H2) as [_ H4].
  cbv zeta in H4. rewrite <- E2' in H4. exact H4.
Qed.
Theorem C56_simple : forall (N : num), ring_laws N -> ord_laws N ->
  forall (LA : lapack N) (V : tensor N) (W G : list (tensor N)) (S0 : tensor N) (R sd : nat) (lambda : N) (regul : tensor N) (k : nat),
  tri_shaped (cholesky LA) (solve_tri LA) ->
  2 <= order V <= 10 -> lens V = repeat sd (order V) -> factors_ok V W R -> mats_ok V G R -> lens S0 = [R; R] -> mk_regul R lambda = Ok regul ->
  (forall j, j <= k -> exact_along (cholesky LA) (solve_tri LA) lambda V R (seq 0 (order V))
     (Nat.iter j (ls_modes (chol_solve (cholesky LA) (solve_tri LA)) lambda V R (seq 0 (order V))) (W, G))) ->
  exists sq q st sq1 q' st' sq2, opt_seqV (order V) = Ok sq /\
    steps k (simple_step LA V regul) (mkOpt W G S0, sq) = Ok (q, (st, sq1)) /\
    steps (S k) (simple_step LA V regul) (mkOpt W G S0, sq) = Ok (q', (st', sq2)) /\
    nle (objective lambda V (oW st') R) (objective lambda V (oW st) R).
Proof.
  intros N RL OL LA V W G S0 R sd lambda regul k Hsh Ho Hd HW HG HS Er He.
  destruct (C22_simple_step_is_a_sweep N RL LA V W G S0 R sd lambda regul k Hsh Ho Hd HW HG HS Er) as (sq & q & st & sq1 & E0 & E1 & _ & E2).
  destruct (C22_simple_step_is_a_sweep N RL LA V W G S0 R sd lambda regul (S k) Hsh Ho Hd HW HG HS Er) as (sq' & q' & st' & sq2 & E0' & E1' & _ & E2').
  rewrite E0 in E0'. injection E0' as <-. exists sq, q, st, sq1, q', st', sq2. repeat (split; [assumption|]).
  set (swp := ls_modes (chol_solve (cholesky LA) (solve_tri LA)) lambda V R (seq 0 (order V))) in *.
  assert (Hin : forall n, In n (seq 0 (order V)) -> n < order V) by (intros n Hn; apply in_seq in Hn; lia).
  assert (HK : forall j, j <= k -> factors_ok V (fst (Nat.iter j swp (W, G))) R).
  { induction j; intros Hj; [exact HW|]. change (Nat.iter (S j) swp (W, G)) with (swp (Nat.iter j swp (W, G))).
    specialize (IHj ltac:(lia)). specialize (He j ltac:(lia)). destruct (Nat.iter j swp (W, G)) as [W1 G1].
    exact (proj1 (modes_mono RL OL (cholesky LA) (solve_tri LA) lambda V R _ W1 G1 IHj Hin He)). }
  specialize (HK k (le_n k)). specialize (He k (le_n k)). change (Nat.iter (S k) swp (W, G)) with (swp (Nat.iter k swp (W, G))) in E2'.
  rewrite <- E2 in HK, He, E2'. destruct (modes_mono RL OL (cholesky LA) (solve_tri LA) lambda V R _ (oW st) (oG st) HK Hin He) as [_ H4].
  cbv zeta in H4. unfold swp in E2'. rewrite <- E2' in H4. exact H4.
Qed.
Lemma dl_fresh o h : fresh (dl_half o h).
Proof.
  unfold dl_half, low_act. assert (HF : forall l, fresh (map Full l)) by (induction l; cbn; constructor; auto).
  assert (HN := fresh_nil). destruct (Nat.even h), (negb (h / 2 mod 5 =? 0)); apply fresh_app; auto; cbn; repeat constructor.
Qed.
Lemma dl_in o h a : 3 <= o -> In a (dl_half o h) -> act_mode a < o.
Proof.
  intros Ho. unfold dl_half, low_act. assert (Hm := Nat.mod_upper_bound (h / 10) (o - 1) ltac:(lia)). set (sp := (h / 10) mod (o - 1)) in *. clearbody sp.
  intros H. destruct (Nat.even h), (negb (h / 2 mod 5 =? 0)); apply in_app_or in H; destruct H as [H|H];
    try (apply in_map_iff in H; destruct H as (x & <- & H); apply in_seq in H; cbn; lia); cbn in H;
    repeat (destruct H as [<-|H]; [cbn; lia|]); destruct H.
Qed.
Theorem C56_two_subtree_low_rank : forall (N : num), ring_laws N -> ord_laws N ->
  forall (LA : lapack N) (V : tensor N) (W G : list (tensor N)) (S0 : tensor N) (R : nat) (lambda : N) (regul : tensor N) (randomised : bool) (fuel k h : nat),
  tri_shaped (cholesky LA) (solve_tri LA) -> low_shaped (svd LA) (qr_q LA) (rnd LA) ->
  3 <= order V <= 31 -> order V <= fuel + 1 -> k <= R -> (forall n, n < order V -> k <= nth n (lens V) 0) ->
  factors_ok V W R -> mats_ok V G R -> lens S0 = [R; R] -> mk_regul R lambda = Ok regul ->
  acts_exact (cholesky LA) (solve_tri LA) (trunc_of (svd LA) (qr_q LA) (rnd LA) randomised) k lambda V R
    (dl_schedule (order V) (S h)) (mkLR W G (repeat tnil (order V)) 0) ->
  exists s0 q s q' s', dl_new (order V) (mkOpt W G S0) = Ok s0 /\
    steps h (dl_step LA fuel k randomised V regul) s0 = Ok (q, s) /\ steps (S h) (dl_step LA fuel k randomised V regul) s0 = Ok (q', s') /\
    nle (objective lambda V (oW (ds (dlb s'))) R) (objective lambda V (oW (ds (dlb s))) R).
Proof.
  intros N RL OL LA V W G S0 R lambda regul rs fuel k h Hsh Hlow Ho Hf HkR HkV HW HG HS Er He.
  destruct (C23_two_subtree_low_rank_exact N RL LA V W G S0 R lambda regul rs fuel k h Hsh Hlow Ho Hf HkR HkV HW HG HS Er) as (s0 & q & s & E0 & E1 & _ & E2 & _).
  destruct (C23_two_subtree_low_rank_exact N RL LA V W G S0 R lambda regul rs fuel k (S h) Hsh Hlow Ho Hf HkR HkV HW HG HS Er) as (s0' & q' & s' & E0' & E1' & _ & E2' & _).
  rewrite E0 in E0'. injection E0' as <-. exists s0, q, s, q', s'. repeat (split; [assumption|]).
  unfold dl_schedule in He, E2'. rewrite flat_map_seq_S in He, E2'. apply acts_app in He. destruct He as [H1 H2].
  unfold lr_acts in E2'. rewrite fold_left_app in E2'. fold (dl_schedule (order V) h) in *.
  set (trunc := trunc_of (svd LA) (qr_q LA) (rnd LA) rs) in *.
  assert (Ht : forall c X r, is_mat X r R -> k <= r -> let '(U, s, VT) := trunc c X k in is_mat U r k /\ is_mat VT k R).
  { intros c X r HX Hr. unfold trunc, trunc_of. destruct rs.
    - destruct (randomized_svd_ok RL LA Hlow X c k r R HX Hr HkR) as [_ H]. destruct (rsvd (svd LA) (qr_q LA) (rnd LA) c X k) as [[U s1] VT]. tauto.
    - destruct Hlow as (H & _). specialize (H X r R k HX Hr HkR). destruct (svd LA X k) as [[U s1] VT]. tauto. }
  destruct (acts_mono RL OL (cholesky LA) (solve_tri LA) trunc k lambda V R (dl_schedule (order V) h) (mkLR W G (repeat tnil (order V)) 0) Ht HkV) as (H3 & H4 & _); auto.
  { unfold dl_schedule. induction (seq 0 h); cbn; [constructor|apply fresh_app; auto; apply dl_fresh]. }
  { apply repeat_length. }
  { intros a Ha. unfold dl_schedule in Ha. apply in_flat_map in Ha. destruct Ha as (j & _ & Ha). eapply dl_in; eauto; lia. }
  set (r1 := lr_acts _ _ lambda V R (dl_schedule (order V) h) _) in *.
  destruct (acts_mono RL OL (cholesky LA) (solve_tri LA) trunc k lambda V R (dl_half (order V) h) r1 Ht HkV (dl_fresh _ _) H3 H4) as (_ & _ & H5); auto.
  { intros a Ha. eapply dl_in; eauto; lia. }
  rewrite E2, E2'. exact H5.
Qed.
Print Assumptions C56_two_subtree.
Print Assumptions C56_multi_sweep.
Print Assumptions C56_simple.
Print Assumptions C56_two_subtree_low_rank.
