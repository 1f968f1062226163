(** Property theorems: the pairwise-perturbation drivers are the algorithms of Spec12, with their log (C57, C58) *)
From Coq Require Import List ZArith QArith Lia Bool Arith Permutation Sorted.
From Verif Require Import Base Num Tensor Spec Spec2 Spec12 MCommon MCP PBase PTensor PSum PMttkrp PMat PKhatri PSolve PALS PPPSweep PropALS PropPP PropPU PDriverRef.
Import ListNotations.
Local Close Scope Q_scope.

(** ** C57 *)
Theorem C57_alsCP_PP_is_the_algorithm :
  forall (N : num), ring_laws N ->
  forall (LA : lapack N), svd_shaped (svd LA) ->
  forall (clock : nat -> N) (rank0 same : bool) (V : tensor N) (R : nat) (W G : list (tensor N)) (tol tol_init limit lambda ratio : N)
    (maxiter resprint : Z) (bench : bool) (fuel rounds : nat) (x : io),
  (bench = true /\ 3 <= order V <= 9) \/ (order V = 4 \/ 6 <= order V <= 9) -> order V < fuel ->
  (neqb lambda n0 = true -> lambda = n0) -> (neqb ratio n1 = true -> ratio = n1) -> resprint <> 0%Z ->
  factors_ok V W R -> mats_ok V G R ->
  alsCP_PP LA clock rank0 rounds fuel same V W G tol tol_init limit maxiter lambda ratio resprint bench x =
  match pp_algorithm clock rank0 (pinv_solve (svd LA) R) V R tol tol_init limit maxiter lambda ratio resprint bench rounds W G x with
  | Some r => Ok r
  | None => Err LoopFuel
  end.
Proof.
  intros N RL LA Hsh clk rank0 same V R W G tol ti limit lambda ratio mi rp bench fuel rounds x Ho Hf Hl Hr Hp HW HG.
  apply (alsCP_PP_refines RL LA V R Hsh); auto; destruct Ho as [[-> Ho]|Ho]; auto; try lia; right; lia.
Qed.
Print Assumptions C57_alsCP_PP_is_the_algorithm.

(** ** C58 *)
Theorem C58_partupdate_is_the_algorithm :
  forall (N : num), ring_laws N ->
  forall (LA : lapack N), svd_shaped (svd LA) ->
  forall (clock : nat -> N) (rank0 same : bool) (V : tensor N) (R : nat) (W G : list (tensor N)) (tol tol_init limit lambda ratio : N)
    (maxiter resprint : Z) (bench : bool) (size fuel rounds : nat) (x : io),
  (bench = true /\ 3 <= order V <= 9) \/ (order V = 4 \/ 6 <= order V <= 9) -> order V < fuel -> size <= order V ->
  (neqb lambda n0 = true -> lambda = n0) -> (neqb ratio n1 = true -> ratio = n1) -> resprint <> 0%Z ->
  factors_ok V W R -> mats_ok V G R ->
  alsCP_PP_partupdate LA clock rank0 rounds fuel same V W G tol tol_init limit maxiter lambda ratio size resprint bench x =
  match pu_algorithm clock rank0 (pinv_solve (svd LA) R) V R tol tol_init limit maxiter lambda ratio size resprint bench rounds W G x with
  | Some r => Ok r
  | None => Err LoopFuel
  end.
Proof.
  intros N RL LA Hsh clk rank0 same V R W G tol ti limit lambda ratio mi rp bench size fuel rounds x Ho Hf Hs Hl Hr Hp HW HG.
  apply (alsCP_PP_partupdate_refines RL LA V R Hsh); auto; destruct Ho as [[-> Ho]|Ho]; auto; try lia; right; lia.
Qed.
Print Assumptions C58_partupdate_is_the_algorithm.
(** the hypotheses are met and both phases are reached: the runs of the algorithm on the integer problem, with their logs *)
Theorem C57_case :
  svd_shaped (svd LAz) /\ factors_ok alsV alsW 2 /\ mats_ok alsV alsW 2 /\ order alsV = 4 /\
  let run (tol : Znum) maxiter bench := pp_algorithm (fun n => Z.of_nat n : Znum) true (pinv_solve (svd LAz) 2) alsV 2 tol (1%Z : Znum) (1000%Z : Znum) maxiter
     (0%Z : Znum) (1%Z : Znum) 1%Z bench 6 alsW alsW (mkIo (N:=Znum) 0 0%Z []) in
  let log r := match r with Some (b, p) => Some (b, rows (pio p)) | None => None end in
  log (run 1%Z 3%Z false) = Some (true, [Row (N:=Znum) 2 0 3%Z 1%Z 0 3%Z 2%Z; Row (N:=Znum) 2 1 3%Z 1%Z 0 0%Z 5%Z; Row (N:=Znum) 2 1 0%Z 1%Z 1 0%Z 8%Z]) /\
  log (run 0%Z 2%Z false) = Some (false, [Row (N:=Znum) 2 0 3%Z 0%Z 0 3%Z 2%Z; Row (N:=Znum) 2 1 3%Z 0%Z 0 0%Z 5%Z; Row (N:=Znum) 2 1 0%Z 0%Z 1 0%Z 8%Z; Row (N:=Znum) 2 2 0%Z 0%Z 1 0%Z 11%Z]) /\
  log (run 0%Z 2%Z true) = Some (true, [RowPP (N:=Znum) 6%Z 3%Z]).
Proof.
  destruct als_case_ok as (H1 & _ & _ & H4). split; [exact LAz_shaped|]. split; [exact H1|]. split; [exact (conj eq_refl (proj2 (proj2 H1)))|]. split; [exact H4|].
  cbv zeta. split; [vm_compute; reflexivity|]. split; vm_compute; reflexivity.
Qed.
(** partial updates: the exact and the approximate phase with two modes; and a benchmark on an order-3 tensor in which no mode or one mode is updated *)
Theorem C58_case :
  let run size := pu_algorithm (fun n => Z.of_nat n : Znum) true (pinv_solve (svd LAz) 2) alsV 2 (0%Z : Znum) (1%Z : Znum) (1000%Z : Znum) 2%Z
     (0%Z : Znum) (1%Z : Znum) size 1%Z false 6 alsW alsW (mkIo (N:=Znum) 0 0%Z []) in
  let bench size := pu_algorithm (fun n => Z.of_nat n : Znum) true (pinv_solve (svd puLA) 2) puV 2 (0%Z : Znum) (1%Z : Znum) (1000%Z : Znum) 2%Z
     (0%Z : Znum) (1%Z : Znum) size 1%Z true 6 puW puW (mkIo (N:=Znum) 0 0%Z []) in
  let log r := match r with Some (b, p) => Some (b, rows (pio p), map data (pW p)) | None => None end in
  2 <= order alsV /\ order puV = 3 /\ svd_shaped (svd puLA) /\ factors_ok puV puW 2 /\
  log (run 2) = Some (false, [Row (N:=Znum) 2 0 3%Z 0%Z 0 3%Z 2%Z; Row (N:=Znum) 2 1 3%Z 0%Z 0 0%Z 5%Z; Row (N:=Znum) 2 1 0%Z 0%Z 1 0%Z 8%Z; Row (N:=Znum) 2 2 0%Z 0%Z 1 0%Z 11%Z],
     [[1; 0; 0; 1]; [1; 0; 0; 1]; [1; 0; 0; 1]; [1; 0; 0; 1]]%Z) /\
  log (bench 0) = Some (true, [RowPP (N:=Znum) 6%Z 3%Z], [[484; 0; 968; 484]; [792; 0; 0; 792]; [792; 0; 0; 792]]%Z) /\
  log (bench 1) = Some (true, [RowPP (N:=Znum) 6%Z 3%Z],
     [[3916441; 7832882; 27415087; 31331528]; [27706000; 0; 0; 27706000]; [27706000; 0; 0; 27706000]]%Z).
Proof.
  cbv zeta. split; [cbn; lia|]. split; [reflexivity|]. split; [apply C45_case|]. split; [apply C45_selection_refuted|].
  split; [vm_compute; reflexivity|]. split; vm_compute; reflexivity.
Qed.

(** ** the log of a run that is not a benchmark *)
Definition row_iter {N : num} (r : row (N:=N)) : Z := match r with Row _ it _ _ _ _ _ => it | _ => (-1)%Z end.
(** a log segment: rows of iterations lo..hi, at most maxiter, in order; the first column is the length of mode 0, the fourth is tol, the fifth the phase *)
Definition log_segment {N : num} (V : tensor N) (tol : N) (maxiter lo hi : Z) (l : list row) : Prop :=
  StronglySorted Z.le (map row_iter l) /\
  forall r, In r l -> (exists it g phase dv t, r = Row (nth 0 (lens V) 0) it g tol phase dv t /\ (phase = 0 \/ phase = 1) /\ (lo <= it <= hi /\ it <= maxiter)%Z).
Section Log.
Context {N : num} (clk : nat -> N) (V : tensor N) (R : nat) (tol tol_init limit : N) (maxiter resprint : Z).
Notation seg := (log_segment V tol maxiter).
Lemma seg_nil lo hi : seg lo hi [].
Proof. split; [constructor|intros r []]. Qed.
Lemma seg_app lo mid hi l1 l2 : (lo <= mid <= hi)%Z -> seg lo mid l1 -> seg mid hi l2 -> seg lo hi (l1 ++ l2).
Proof.
  intros Hm [S1 H1] [S2 H2]. split.
  - rewrite map_app. induction l1 as [|r l1 IH]; [exact S2|]. cbn [map app] in *. inversion S1 as [|? ? S1' F1]; subst.
    constructor; [apply IH; auto; intros; apply H1; right; auto|]. apply Forall_app. split; [exact F1|].
    apply Forall_forall. intros y Hy. apply in_map_iff in Hy as (r2 & <- & Hr2).
    destruct (H1 r (or_introl eq_refl)) as (i1 & ? & ? & ? & ? & -> & _ & Hi1). destruct (H2 r2 Hr2) as (i2 & ? & ? & ? & ? & -> & _ & Hi2). cbn. lia.
  - intros r Hr. apply in_app_iff in Hr as [Hr|Hr]; [destruct (H1 r Hr) as (it & g & ph & dv & t & E & Hp & Hi)|destruct (H2 r Hr) as (it & g & ph & dv & t & E & Hp & Hi)];
      exists it, g, ph, dv, t; (split; [exact E|split; [exact Hp|lia]]).
Qed.
Lemma seg_one it g ph dv t : (ph = 0 \/ ph = 1) -> (it <= maxiter)%Z -> seg it it [Row (nth 0 (lens V) 0) it g tol ph dv t].
Proof. intros Hp Hi. split; [repeat constructor|]. intros r [<-|[]]. exists it, g, ph, dv, t. split; [reflexivity|]. split; [auto|lia]. Qed.
Definition logs (rank0 : bool) (lo hi : Z) (p q : pp_state (N:=N)) : Prop := exists l, rows (pio q) = rows (pio p) ++ l /\ seg lo hi l /\ (rank0 = false -> l = []).
Lemma logs_refl rank0 lo hi p q : rows (pio q) = rows (pio p) -> logs rank0 lo hi p q.
Proof. intros E. exists []. rewrite app_nil_r. split; [exact E|]. split; [apply seg_nil|auto]. Qed.
Lemma logs_trans rank0 lo mid hi p q r : (lo <= mid <= hi)%Z -> logs rank0 lo mid p q -> logs rank0 mid hi q r -> logs rank0 lo hi p r.
Proof.
  intros Hm (l1 & E1 & S1 & R1) (l2 & E2 & S2 & R2). exists (l1 ++ l2). split; [rewrite E2, E1, app_assoc; reflexivity|]. split; [apply (seg_app lo mid hi); auto|].
  intros H. rewrite R1, R2 by auto. reflexivity.
Qed.
Lemma finished_rows g x : rows (snd (finished clk g tol limit x)) = rows x.
Proof. unfold finished. destruct (nltb g tol); reflexivity. Qed.
Lemma written_logs rank0 it g ph dv t (p q : pp_state (N:=N)) x : (ph = 0 \/ ph = 1) -> (it <= maxiter)%Z -> rows x = rows (pio p) ->
  rows (pio q) = rows (written rank0 (Row (nth 0 (lens V) 0) it g tol ph dv t) x) -> logs rank0 it it p q.
Proof.
  intros Hp Hi Ex Eq. destruct rank0; cbn [written rows] in Eq.
  - eexists. split; [rewrite Eq, Ex; reflexivity|]. split; [apply seg_one; auto|discriminate].
  - apply logs_refl. congruence.
Qed.
Lemma exact_check_log rank0 it p : (it <= maxiter)%Z -> logs rank0 it it p (snd (exact_check clk rank0 V R tol limit it p)).
Proof.
  intros Hi. unfold exact_check. destruct (timed clk (pio p)) as [dt x] eqn:Et. destruct (finished _ _ _ _ _) as [stop x'] eqn:Ef. cbn [snd].
  eapply (written_logs rank0 it _ _ _ _ p _ x); [left; reflexivity|exact Hi| |]; cbn [pio].
  - unfold timed in Et. injection Et as _ <-. reflexivity.
  - assert (E := finished_rows (grad_norm (pG p)) (written rank0 (Row (nth 0 (lens V) 0) it (grad_norm (pG p)) tol 0 (resid_norm V (pW p) R) dt) x)). rewrite Ef in E. exact E.
Qed.
Lemma exact_log rank0 sweep grads : forall n it prev p, (it + Z.of_nat n <= maxiter + 1)%Z ->
  let r := exact_phase clk rank0 V R tol tol_init limit maxiter resprint sweep grads n it prev p in (it <= fst r)%Z /\ logs rank0 it (fst r) p (snd r).
Proof.
  induction n as [|n IH]; intros it prev p Hn; cbn [exact_phase].
  - cbn. split; [lia|apply logs_refl; reflexivity].
  - assert (Hc : logs rank0 it it p (snd (if check_due maxiter resprint it then exact_check clk rank0 V R tol limit it p else (false, p)))).
    { destruct (check_due _ _ _); [apply exact_check_log; lia|apply logs_refl; reflexivity]. }
    destruct (if check_due maxiter resprint it then _ else _) as [stop p1]. cbn [snd] in Hc. destruct stop; [cbn; split; [lia|exact Hc]|].
    set (p2 := mkPP _ _ _ _ _). destruct (settled _ _ _ _).
    + cbn. split; [lia|]. destruct Hc as (l & E & H). exists l. auto.
    + cbv zeta. destruct (IH (it + 1)%Z (sweep (pW p1)) p2 ltac:(lia)) as [H1 H2]. split; [lia|].
      apply (logs_trans rank0 it it _ p p1); [lia|exact Hc|]. destruct H2 as (l & E & [S F] & H). exists l. split; [exact E|]. split; [|exact H]. split; [exact S|].
      intros r Hr. destruct (F r Hr) as (i & g & ph & dv & t & Er & Hp & Hi). exists i, g, ph, dv, t. split; [exact Er|]. split; [exact Hp|lia].
Qed.
Lemma approx_check_log rank0 it first p : (it <= maxiter)%Z -> logs rank0 it it p (snd (approx_check clk rank0 V R tol limit maxiter false it first p)).
Proof.
  intros Hi. unfold approx_check. destruct (timed clk (pio p)) as [dt x] eqn:Et. destruct (finished _ _ _ _ _) as [stop x'] eqn:Ef. cbn [snd].
  eapply (written_logs rank0 it _ _ _ _ p _ x); [right; reflexivity|exact Hi| |]; cbn [pio].
  - unfold timed in Et. injection Et as _ <-. reflexivity.
  - assert (E := finished_rows (grad_norm (pG p)) (written rank0 (Row (nth 0 (lens V) 0) it (grad_norm (pG p)) tol 1 (resid_norm V (pW p) R) dt) x)). rewrite Ef in E. exact E.
Qed.
Lemma approx_log {A : Type} rank0 (step : A * pp_state (N:=N) -> A * pp_state (N:=N)) : (forall a, pio (snd (step a)) = pio (snd a)) ->
  forall n k it first a, (it + Z.of_nat n <= maxiter + 1)%Z ->
  let r := approx_loop clk rank0 V R tol tol_init limit maxiter resprint false step n k it first a in (it <= fst r)%Z /\ logs rank0 it (fst r) (snd a) (snd r).
Proof.
  intros Hst. induction n as [|n IH]; intros k it first a Hn; cbn [approx_loop].
  - cbn. split; [lia|apply logs_refl; reflexivity].
  - destruct (negb (k =? 0) && _); [cbn; split; [lia|apply logs_refl; reflexivity]|].
    assert (Hc : logs rank0 it it (snd a) (snd (if check_due maxiter resprint it || (k =? 0) then approx_check clk rank0 V R tol limit maxiter false it first (snd a) else (false, first, snd a)))).
    { destruct (_ || _); [apply approx_check_log; lia|apply logs_refl; reflexivity]. }
    destruct (if check_due maxiter resprint it || (k =? 0) then _ else _) as [[stop f1] p1]. cbn [snd] in Hc. destruct stop; [cbn; split; [lia|exact Hc]|].
    cbv zeta. destruct (IH (S k) (it + 1)%Z f1 (step (fst a, p1)) ltac:(lia)) as [H1 H2]. split; [lia|].
    apply (logs_trans rank0 it it _ (snd a) p1); [lia|exact Hc|]. destruct H2 as (l & E & [S F] & H). exists l. rewrite Hst in E. cbn [snd] in E.
    split; [exact E|]. split; [|exact H]. split; [exact S|].
    intros r Hr. destruct (F r Hr) as (i & g & ph & dv & t & Er & Hp & Hi). exists i, g, ph, dv, t. split; [exact Er|]. split; [exact Hp|lia].
Qed.
Lemma driver_log {A : Type} rank0 sweep grads (step : list (tensor N) -> A * pp_state (N:=N) -> A * pp_state (N:=N)) (a0 : A) :
  (forall W a, pio (snd (step W a)) = pio (snd a)) ->
  forall n it p it' q, driver_loop tol maxiter false
     (fun iter p => exact_phase clk rank0 V R tol tol_init limit maxiter resprint sweep grads (Z.to_nat (maxiter + 1 - iter)) iter (zmats V R) p)
     (approx_phase clk rank0 V R tol tol_init limit maxiter resprint false step a0) n it p = Some (it', q) ->
  (it <= it')%Z /\ logs rank0 it it' p q.
Proof.
  intros Hst. induction n as [|n IH]; intros it p it' q; cbn [driver_loop].
  - destruct (_ && _); [discriminate|]. intros E. injection E as <- <-. split; [lia|apply logs_refl; reflexivity].
  - destruct (_ && _) eqn:Ec; [|intros E; injection E as <- <-; split; [lia|apply logs_refl; reflexivity]].
    apply andb_true_iff in Ec as [_ Ec]. apply Z.leb_le in Ec.
    destruct (exact_log rank0 sweep grads (Z.to_nat (maxiter + 1 - it)) it (zmats V R) p ltac:(lia)) as [A1 A2]. destruct (exact_phase _ _ _ _ _ _ _ _ _ _ _ _ _ _ _) as [it1 p1]. cbn [fst snd] in *.
    assert (Ha : let r := approx_phase clk rank0 V R tol tol_init limit maxiter resprint false step a0 it1 p1 in (it1 <= fst r)%Z /\ logs rank0 it1 (fst r) p1 (snd r)).
    { unfold approx_phase. cbn [negb andb]. destruct (Z.leb_spec it1 maxiter); [|cbn; split; [lia|apply logs_refl; reflexivity]].
      destruct (too_far _ _ _ _); [cbn; split; [lia|apply logs_refl; reflexivity]|].
      assert (B := approx_log rank0 (step (pW p1)) (Hst (pW p1)) (Z.to_nat (maxiter + 1 - it1)) 0 it1 n0 (a0, mkPP (pW p1) (pG p1) (zmats V R) (ppn p1) (pio p1)) ltac:(lia)).
      cbv zeta in B |- *. cbn [snd] in B. exact B. }
    destruct (approx_phase _ _ _ _ _ _ _ _ _ _ _ _ _ _) as [it2 p2]. cbv zeta in Ha. cbn [fst snd] in Ha. destruct Ha as [B1 B2].
    intros E. destruct (IH _ _ _ _ E) as [C1 C2]. split; [lia|]. apply (logs_trans rank0 it it1 it' p p1); [lia|exact A2|]. apply (logs_trans rank0 it1 it2 it' p1 p2); [lia|exact B2|exact C2].
Qed.
End Log.
(** every line a run of alsCP_PP or alsCP_PP_partupdate adds to the log: iteration numbers 0..maxiter in non-decreasing order *)
Theorem C57_log :
  forall (N : num), ring_laws N ->
  forall (LA : lapack N), svd_shaped (svd LA) ->
  forall (clock : nat -> N) (rank0 same : bool) (V : tensor N) (R : nat) (W G : list (tensor N)) (tol tol_init limit lambda ratio : N)
    (maxiter resprint : Z) (fuel rounds : nat) (x : io) (ret : bool) (p : pp_state),
  order V = 4 \/ 6 <= order V <= 9 -> order V < fuel ->
  (neqb lambda n0 = true -> lambda = n0) -> (neqb ratio n1 = true -> ratio = n1) -> resprint <> 0%Z ->
  factors_ok V W R -> mats_ok V G R ->
  alsCP_PP LA clock rank0 rounds fuel same V W G tol tol_init limit maxiter lambda ratio resprint false x = Ok (ret, p) ->
  exists new last, rows (pio p) = rows x ++ new /\ log_segment V tol maxiter 0 last new /\ (rank0 = false -> new = []) /\ (ret = false -> last = maxiter + 1)%Z.
Proof.
  intros N RL LA Hsh clk rank0 same V R W G tol ti limit lambda ratio mi rp fuel rounds x ret p Ho Hf Hl Hr Hp HW HG E.
  rewrite (C57_alsCP_PP_is_the_algorithm N RL LA Hsh clk rank0 same V R) in E by auto. unfold pp_algorithm, driver in E.
  destruct (driver_loop _ _ _ _ _ _ _ _) as [[it q]|] eqn:Ed; [|discriminate]. injection E as <- <-.
  apply driver_log in Ed.
  - destruct Ed as [H1 (l & E1 & E2 & E3)]. exists l, it. cbn [pio rows] in E1. split; [exact E1|]. split; [exact E2|]. split; [exact E3|].
    intros Eb. apply negb_false_iff, Z.eqb_eq in Eb. exact Eb.
  - intros W1 [[] a]. unfold pp_step_all. cbn [snd]. destruct (pp_sweep _ _ _ _ _ _ _). reflexivity.
Qed.
Print Assumptions C57_log.
Theorem C58_log :
  forall (N : num), ring_laws N ->
  forall (LA : lapack N), svd_shaped (svd LA) ->
  forall (clock : nat -> N) (rank0 same : bool) (V : tensor N) (R : nat) (W G : list (tensor N)) (tol tol_init limit lambda ratio : N)
    (maxiter resprint : Z) (size fuel rounds : nat) (x : io) (ret : bool) (p : pp_state),
  order V = 4 \/ 6 <= order V <= 9 -> order V < fuel -> size <= order V ->
  (neqb lambda n0 = true -> lambda = n0) -> (neqb ratio n1 = true -> ratio = n1) -> resprint <> 0%Z ->
  factors_ok V W R -> mats_ok V G R ->
  alsCP_PP_partupdate LA clock rank0 rounds fuel same V W G tol tol_init limit maxiter lambda ratio size resprint false x = Ok (ret, p) ->
  exists new last, rows (pio p) = rows x ++ new /\ log_segment V tol maxiter 0 last new /\ (rank0 = false -> new = []) /\ (ret = false -> last = maxiter + 1)%Z.
Proof.
  intros N RL LA Hsh clk rank0 same V R W G tol ti limit lambda ratio mi rp size fuel rounds x ret p Ho Hf Hs Hl Hr Hp HW HG E.
  rewrite (C58_partupdate_is_the_algorithm N RL LA Hsh clk rank0 same V R) in E by auto. unfold pu_algorithm, driver in E.
  destruct (driver_loop _ _ _ _ _ _ _ _) as [[it q]|] eqn:Ed; [|discriminate]. injection E as <- <-.
  apply driver_log in Ed.
  - destruct Ed as [H1 (l & E1 & E2 & E3)]. exists l, it. cbn [pio rows] in E1. split; [exact E1|]. split; [exact E2|]. split; [exact E3|].
    intros Eb. apply negb_false_iff, Z.eqb_eq in Eb. exact Eb.
  - intros W1 [[[M dM] rel] a]. reflexivity.
Qed.
Print Assumptions C58_log.
