(** C74: the program test (tests/test_decomposition.cxx) *)
From Coq Require Import List ZArith QArith Qround Bool Arith Lia.
From Verif Require Import Base Num Tensor Spec Spec3 Spec4 MCommon MCP MOpt MOptLR MCPD MRun MTest PBase PTensor PCPD PCPD2 PropOptLR PropCPD PRun PropRun PRun2 PropRun2.
Import ListNotations.
Local Close Scope Q_scope.

Section S.
Context {N : num}.
(** the tensor, the starting factors and the starting contents of grad_W of the program: random fills number 0, 1..6 and 7..12 *)
Definition test_V (env : environment (N := N)) : tensor N := rng env 0 [13; 13; 13; 13; 13; 13].
Definition test_W (env : environment (N := N)) : list (tensor N) := map (fun k => rng env k [13; 5]) [1; 2; 3; 4; 5; 6].
Definition test_G (env : environment (N := N)) : list (tensor N) := map (fun k => rng env k [13; 5]) [7; 8; 9; 10; 11; 12].
End S.
Lemma test_shapes {N : num} (env : environment (N := N)) :
  (forall k ls, lens (rng env k ls) = ls /\ Tensor.wf (rng env k ls)) ->
  factors_ok (test_V env) (test_W env) 5 /\ mats_ok (test_V env) (test_G env) 5.
Proof.
  intros H. destruct (H 0 [13; 13; 13; 13; 13; 13]) as (L0 & w0). assert (Ho : order (test_V env) = 6) by (unfold order, test_V; rewrite L0; reflexivity).
  assert (HM : forall ks n, length ks = 6 -> n < 6 -> is_mat (fac (map (fun k => rng env k [13; 5]) ks) n) (nth n (lens (test_V env)) 0) 5).
  { intros ks n Hl Hn. unfold fac. rewrite (nth_map_lt _ _ _ 0%nat) by lia. unfold test_V. rewrite L0.
    replace (nth n [13; 13; 13; 13; 13; 13] 0) with 13 by (do 6 (destruct n as [|n]; [reflexivity|]); lia). apply H. }
  split; [split; [exact w0|split; [rewrite Ho; reflexivity|]]|split; [rewrite Ho; reflexivity|]]; rewrite Ho; intros; apply HM; auto.
Qed.

Lemma late_checks n : n <= 62 -> checks (1 # 2) 30 100 n = if n =? 0 then [] else if n <=? 60 then [0] else if n =? 61 then [0; 60] else [0; 60; 61].
Proof.
  intros H. assert (E : forall m, (m <=? 62) = true -> checks (1 # 2) 30 100 m = if m =? 0 then [] else if m <=? 60 then [0] else if m =? 61 then [0; 60] else [0; 60; 61]).
  { assert (F : forallb (fun m => if list_eq_dec Nat.eq_dec (checks (1 # 2) 30 100 m) (if m =? 0 then [] else if m <=? 60 then [0] else if m =? 61 then [0; 60] else [0; 60; 61]) then true else false) (seq 0 63) = true)
      by (vm_compute; reflexivity).
    intros m Hm. apply Nat.leb_le in Hm. rewrite forallb_forall in F. specialize (F m ltac:(apply in_seq; lia)).
    destruct (list_eq_dec _ _ _) as [e|]; [exact e|discriminate]. }
  apply E. apply Nat.leb_le. exact H.
Qed.
Lemma late_checked n : n < 62 -> checked_at (1 # 2) 30 100 n = true -> n = 0 \/ n = 60 \/ n = 61.
Proof.
  intros H. assert (F : forallb (fun m => implb (checked_at (1 # 2) 30 100 m) ((m =? 0) || (m =? 60) || (m =? 61))) (seq 0 62) = true) by (vm_compute; reflexivity).
  rewrite forallb_forall in F. specialize (F n ltac:(apply in_seq; lia)). intros E. rewrite E in F. cbn [implb] in F.
  rewrite !orb_true_iff, !Nat.eqb_eq in F. lia.
Qed.

(** ** C74.  The program always ends without an assertion failure, an abort or undefined behaviour, for every random tensor and
    start (rng), clock and linear algebra library (LA, any with outputs of the right shapes).  Its only checks are before the first
    half sweep and after 30 and 30.5 sweeps; it stops at one of them, if the gradient is below 1e-5 or the time is up there, and
    otherwise after exactly 31 sweeps (62 half sweeps), and als returns whether a check stopped it.  The file gets one row for every
    check that was made: at most three. *)
Theorem C74_test_program : forall (N : num), ring_laws N ->
  forall (LA : lapack N) (clock : nat -> N) (rank0 : bool) (env : environment (N := N)) (wf : nat) (x : io (N := N)),
  tri_shaped (cholesky LA) (solve_tri LA) -> low_shaped (svd LA) (qr_q LA) (MCommon.rnd LA) ->
  (forall k ls, lens (rng env k ls) = ls /\ Tensor.wf (rng env k ls)) -> 62 <= wf ->
  let st k := ls_modes (chol_solve (cholesky LA) (solve_tri LA)) n0 (test_V env) 5 (dt_schedule 6 k) (test_W env, test_G env) in
  let gn k := grad_norm (snd (st k)) in
  let small k := nltb (gn k) (nlit (1 # 100000)) in
  let late j := out_of_time clock (ck x) (nlit 1000) j in
  let row j i := CRow 13 (sweeps_after (1 # 2) i) (gn i) (nlit (1 # 100000)) (resid_norm (test_V env) (fst (st i)) 5) (reported_time clock (ck x) j) in
  let result stopped k g rows := test_main LA clock rank0 env wf x = Ok (stopped, st k, g, if rank0 then rows else []) in
  if small 0 || late 0 then result true 0 (gn 0) [row 0 0]
  else if small 60 || late 1 then result true 60 (gn 60) [row 0 0; row 1 60]
  else if small 61 || late 2 then result true 61 (gn 61) [row 0 0; row 1 60; row 2 61]
  else exists g, result false 62 g [row 0 0; row 1 60; row 2 61].
Proof.
  intros N RL LA clk rank0 env wf x Hsh Hlow Hrng Hwf st gn small late row result.
  destruct (test_shapes env Hrng) as (HW & HG). assert (L0 : lens (test_V env) = [13; 13; 13; 13; 13; 13]) by (apply Hrng).
  assert (Ho : order (test_V env) = 6) by (unfold order; rewrite L0; reflexivity).
  assert (Hok : method_ok TwoSubtree (order (test_V env)) 13 5) by (rewrite Ho; cbn [method_ok]; lia).
  assert (HL : lens (test_V env) = repeat 13 (order (test_V env))) by (rewrite Ho; exact L0).
  destruct (C24_als_run N RL LA clk rank0 (test_V env) 13 5 (test_W env) (test_G env) n0 TwoSubtree wf (nlit (1 # 100000)) (nlit 1000) 30 100 false x
    Hsh Hlow Hok HL HW HG ltac:(lia) ltac:(lia) ltac:(change (Z.to_nat 30) with 30; lia)) as (k & stopped & g & rows & E & _ & Hrun & Hg & Er).
  cbn [method_part method_state] in E, Hrun, Hg, Er. rewrite Ho in E, Hrun, Hg, Er.
  assert (Em : test_main LA clk rank0 env wf x = Ok (negb (Qeq_bool (sweeps_after (1 # 2) k) (inject_Z (30 + 1))), st k, g, rows)) by exact E. clear E.
  change (fun k => snd (ls_modes _ _ _ _ (dt_schedule 6 k) _)) with (fun k => snd (st k)) in Hrun, Er.
  change (fun k => fst (ls_modes _ _ _ _ (dt_schedule 6 k) _)) with (fun k => fst (st k)) in Er.
  change (grad_norm _) with (gn k) in Hg. unfold als_run in Hrun. change (fun i => grad_norm (snd (st i))) with gn in Hrun.
  destruct Hrun as (H1 & H2).
  assert (Hst : forall i, i < 62 -> stops_at (out_of_time clk (ck x) (nlit 1000)) gn (nlit (1 # 100000)) 30 100 (1 # 2) i = true ->
    (i = 0 /\ small 0 || late 0 = true) \/ (i = 60 /\ small 60 || late 1 = true) \/ (i = 61 /\ small 61 || late 2 = true)).
  { intros i Hi Hs. unfold stops_at in Hs. apply andb_true_iff in Hs as (Hc & Hs). apply late_checked in Hc; [|auto].
    rewrite late_checks in Hs by lia. destruct Hc as [->|[->| ->]]; auto. }
  assert (Hst' : forall i j, (i = 0 /\ j = 0) \/ (i = 60 /\ j = 1) \/ (i = 61 /\ j = 2) ->
    stops_at (out_of_time clk (ck x) (nlit 1000)) gn (nlit (1 # 100000)) 30 100 (1 # 2) i = small i || late j).
  { intros i j Hc. unfold stops_at. assert (E : checked_at (1 # 2) 30 100 i = true) by (destruct Hc as [[-> _]|[[-> _]|[-> _]]]; vm_compute; reflexivity).
    rewrite E. rewrite late_checks by lia. destruct Hc as [[-> ->]|[[-> ->]|[-> ->]]]; reflexivity. }
  assert (Hk62 : k <= 62 /\ (stopped = true -> k < 62) /\ (stopped = false -> k = 62)).
  { assert (A : forall i, i < k -> (Z.of_nat i / 2 <= 30)%Z) by (intros i Hi; rewrite <- half_floor; apply H1; auto).
    assert (B : forall i, (Z.of_nat i / 2 <= 30)%Z -> i < 62).
    { intros i Hi. assert (C := Z.div_mod (Z.of_nat i) 2 ltac:(lia)). assert (D := Z.mod_pos_bound (Z.of_nat i) 2 ltac:(lia)). lia. }
    assert (Hle : k <= 62) by (destruct k as [|k']; [lia|]; specialize (B k' (A k' ltac:(lia))); lia).
    split; [exact Hle|]. split; intros ->; [destruct H2 as [H2 _]; rewrite half_floor in H2; apply B; auto|].
    rewrite half_floor in H2. destruct (Nat.eq_dec k 62) as [|Hne]; [auto|exfalso].
    assert (C := Z.div_mod (Z.of_nat k) 2 ltac:(lia)). assert (D := Z.mod_pos_bound (Z.of_nat k) 2 ltac:(lia)). lia. }
  destruct Hk62 as (Hle & Hlt & Heq).
  assert (Hno : forall i j, (i = 0 /\ j = 0) \/ (i = 60 /\ j = 1) \/ (i = 61 /\ j = 2) -> i < k -> small i || late j = false).
  { intros i j Hc Hi. rewrite <- (Hst' i j Hc). apply H1; auto. }
  destruct stopped.
  - specialize (Hlt eq_refl). destruct H2 as [_ H2]. rewrite (Hg eq_refl) in Em. rewrite Nat.add_1_r, late_checks in Er by lia.
    destruct (Hst k Hlt H2) as [[-> Hs]|[[-> Hs]|[-> Hs]]].
    + rewrite Hs. unfold result. rewrite Em. rewrite Er. unfold als_rows. rewrite L0. reflexivity.
    + rewrite (Hno 0 0 ltac:(auto) ltac:(lia)), Hs. unfold result. rewrite Em. rewrite Er. unfold als_rows. rewrite L0. reflexivity.
    + rewrite (Hno 0 0 ltac:(auto) ltac:(lia)), (Hno 60 1 ltac:(auto) ltac:(lia)), Hs. unfold result. rewrite Em. rewrite Er. unfold als_rows. rewrite L0. reflexivity.
  - specialize (Heq eq_refl). rewrite Heq in *. rewrite (Hno 0 0 ltac:(auto) ltac:(lia)), (Hno 60 1 ltac:(auto) ltac:(lia)), (Hno 61 2 ltac:(auto) ltac:(lia)).
    exists g. unfold result. rewrite Em, Er. rewrite Nat.add_0_r, late_checks by lia. unfold als_rows. rewrite L0. reflexivity.
Qed.
(** the part of the program that main does not call: its assertions hold and Init accepts the tensor and the factors *)
Theorem C74_unused_test : forall (N : num), ring_laws N -> forall (env : environment (N := N)),
  (forall k ls, lens (rng env k ls) = ls /\ Tensor.wf (rng env k ls)) -> test_decomposition env = Ok tt.
Proof.
  intros N RL env H. unfold test_decomposition, cpd_init. cbn [Nat.eqb cpd_assert bind].
  destruct (H 0 [5; 5; 5]) as (L0 & _). change (cube 3 5) with [5; 5; 5]. unfold order. rewrite L0. cbn [length Nat.eqb cpd_assert bind].
  cbn [for_ Nat.sub seq map fold_left lget nth_error bind Nat.eqb cpd_assert]. unfold for_. cbn.
  assert (E : forall k, ncol (rng env k [5; 2]) = 2) by (intros k; unfold ncol; destruct (H k [5; 2]) as (-> & _); reflexivity).
  rewrite !E. reflexivity.
Qed.
(** a complete case: the random fills are 0, 1, 2, the clock advances by one at every reading *)
Theorem C74_case :
  tri_shaped (cholesky lLA) (solve_tri lLA) /\ low_shaped (svd lLA) (qr_q lLA) (MCommon.rnd lLA) /\
  (forall k ls, lens (rng eZ k ls) = ls /\ Tensor.wf (rng eZ k ls)) /\
  (exists s g rows, test_main lLA cZ true eZ 62 (mkIo 0 (0%Z : Znum) []) = Ok (false, s, g, rows) /\ length rows = 3) /\
  (exists s g rows, test_main lLA (fun n => (if Nat.ltb n 5 then 0 else 5000)%Z : Znum) true eZ 62 (mkIo 0 (0%Z : Znum) []) = Ok (true, s, g, rows) /\ length rows = 2).
Proof.
  assert (A : tri_shaped (cholesky lLA) (solve_tri lLA)) by apply C23_case.
  assert (B : low_shaped (svd lLA) (qr_q lLA) (MCommon.rnd lLA)) by apply C23_case.
  assert (C : forall k ls, lens (rng eZ k ls) = ls /\ Tensor.wf (rng eZ k ls)) by (intros k ls; split; [reflexivity|apply tabulate_wf]).
  split; [exact A|]. split; [exact B|]. split; [exact C|].
  assert (Hs : forall g : Znum, (0 <= g)%Z -> nltb g (nlit (1 # 100000)) = false) by (intros g Hg; change (Z.ltb g 0 = false); apply Z.ltb_ge; exact Hg).
  assert (Hn : forall G : list (tensor Znum), (0 <= grad_norm G)%Z) by (intros G; apply Z.sqrt_nonneg).
  split.
  - pose proof (C74_test_program Znum Znum_ring lLA cZ true eZ 62 (mkIo 0 (0%Z : Znum) []) A B C (le_n _)) as H. cbv beta zeta in H.
    rewrite !Hs in H by apply Hn. destruct H as (g & H). do 3 eexists. split; [exact H|reflexivity].
  - pose proof (C74_test_program Znum Znum_ring lLA (fun n => (if Nat.ltb n 5 then 0 else 5000)%Z : Znum) true eZ 62 (mkIo 0 (0%Z : Znum) []) A B C (le_n _)) as H. cbv beta zeta in H.
    rewrite !Hs in H by apply Hn. do 3 eexists. split; [exact H|reflexivity].
Qed.
Print Assumptions C74_test_program.
Print Assumptions C74_unused_test.
Print Assumptions C74_case.
