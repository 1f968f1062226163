(** C62: the log of pp_bench *)
From Coq Require Import List ZArith QArith Lia Bool Arith String Ascii Permutation.
From Verif Require Import Base Num Tensor Spec Spec2 Spec3 Spec4 Spec5 Spec7 Spec8 Spec9 Spec12 Spec13 Spec14 Spec15 Spec16 MCommon MCP MTucker MGen MRun MMains PBase PTensor PGen PGen2 PDrivers PTucker PTSweep
  PDriverRef PTDriverRef PMainRef PropALS PropTucker PropTucker2 PropDrivers PropDrivers2 PropMains PropMains2 PropMains3 PropRun PropRun2 PTreeProps PDT PTree PTtm PMat PKhatri PSum PMttkrp PGrad PPPDriver.
Import ListNotations.
Local Close Scope Q_scope.
Local Open Scope string_scope.

(** ** the log of the benchmark *)
Section Log.
Context {N : num} (clk : nat -> N) (rank0 : bool).
Definition is_dt (r : row (N:=N)) : Prop := exists t, r = RowDT t.
Definition is_pp (r : row (N:=N)) : Prop := exists a b, r = RowPP a b.
(** what a repetition adds to the log: at most one row, of kind Q, and only on process 0 *)
Definition adds (Q : row (N:=N) -> Prop) (n : nat) (x y : io (N:=N)) : Prop :=
  exists l, rows y = (rows x ++ l)%list /\ Forall Q l /\ List.length l <= n /\ (rank0 = false -> l = []).
Lemma adds_refl Q n x : adds Q n x x.
Proof. exists []. rewrite app_nil_r. split; [reflexivity|]. split; [constructor|]. split; [cbn; lia|reflexivity]. Qed.
Lemma adds_trans Q n m x y z : adds Q n x y -> adds Q m y z -> adds Q (n + m) x z.
Proof.
  intros (l & E & F & L & H) (l' & E' & F' & L' & H'). exists (l ++ l')%list. rewrite E', E, app_assoc. split; [reflexivity|].
  split; [apply Forall_app; auto|]. split; [rewrite app_length; lia|]. intros Hr. rewrite H, H' by auto. reflexivity.
Qed.
Lemma again_adds {A} Q (g : A * io (N:=N) -> option (A * io (N:=N))) : (forall a x, exists a' y, g (a, x) = Some (a', y) /\ adds Q 1 x y) ->
  forall n a x, exists a' y, again n g (a, x) = Some (a', y) /\ adds Q n x y.
Proof.
  intros H n. induction n as [|n IH]; intros a x; cbn [again].
  - exists a, x. split; [reflexivity|apply adds_refl].
  - destruct (H a x) as (a1 & x1 & -> & H1). destruct (IH a1 x1) as (a2 & x2 & E & H2). exists a2, x2. split; [exact E|]. apply (adds_trans Q 1 n x x1 x2 H1 H2).
Qed.
(** exactly one row per repetition *)
Lemma again_exact {A} Q (g : A * io (N:=N) -> option (A * io (N:=N))) : (forall a x, exists a' y r, g (a, x) = Some (a', y) /\ rows y = (rows x ++ [r])%list /\ Q r) ->
  forall n a x, exists a' y l, again n g (a, x) = Some (a', y) /\ rows y = (rows x ++ l)%list /\ Forall Q l /\ List.length l = n.
Proof.
  intros H n. induction n as [|n IH]; intros a x; cbn [again].
  - exists a, x, []. rewrite app_nil_r. auto.
  - destruct (H a x) as (a1 & x1 & r & -> & H1 & Q1). destruct (IH a1 x1) as (a2 & x2 & l & E & H2 & F & L). exists a2, x2, (r :: l). split; [exact E|]. rewrite H2, H1, <- app_assoc. cbn. auto.
Qed.
Context (V : tensor N) (tol ti limit : N) (resprint : Z) (R : nat) (Hrp : resprint <> 0%Z).

Lemma timed_rows (x : io (N:=N)) : rows (snd (timed clk x)) = rows x. Proof. reflexivity. Qed.
Lemma finished_rows g (x : io (N:=N)) : rows (snd (finished clk g tol limit x)) = rows x. Proof. unfold finished. destruct (nltb g tol); reflexivity. Qed.
Lemma written_adds (Q : row (N:=N) -> Prop) r (x : io (N:=N)) : Q r -> adds Q 1 x (written rank0 r x).
Proof.
  intros H. unfold written. destruct rank0 eqn:E; [|exact (adds_refl Q 1 x)]. exists [r]. cbn [rows]. split; [reflexivity|]. split; [auto|]. split; [cbn; lia|congruence].
Qed.
Lemma adds_rows Q n x y y' : rows y = rows y' -> adds Q n x y -> adds Q n x y'.
Proof. intros E (l & E1 & H). exists l. rewrite <- E. auto. Qed.
Lemma adds_rows0 Q n x x' y : rows x = rows x' -> adds Q n x y -> adds Q n x' y.
Proof. intros E (l & E1 & H). exists l. rewrite <- E. auto. Qed.

(** a check of the approximate phase in a benchmark: a row only at the last iteration *)
Lemma approx_check_row it first (p : pp_state (N:=N)) :
  let '(stop, _, q) := approx_check clk rank0 V R tol limit 1 true it first p in
  adds is_pp (if Z.eqb it 1 then 1 else 0) (pio p) (pio q) /\ pW q = pW p /\ pG q = pG p /\ ppn q = grad_norm (pG p) /\
  (rank0 = true -> it = 1%Z -> exists a b, rows (pio q) = (rows (pio p) ++ [RowPP a b])%list) /\
  (nltb (grad_norm (pG p)) tol = true -> stop = true) /\ 
  (rank0 = true -> it <> 1%Z -> nltb (grad_norm (pG p)) tol = false -> (forall c, nltb limit (nsub (clk (c + 1)) (clk c)) = false) -> stop = false).
Proof.
  unfold approx_check. destruct (timed clk (pio p)) as [dt x] eqn:Et. assert (Hx : rows x = rows (pio p)) by (unfold timed in Et; injection Et as _ <-; reflexivity). clear Et.
  destruct rank0 eqn:Er; [destruct (Z.eqb_spec it 1) as [->|Hi]|].
  - destruct (finished clk _ tol limit _) as [stop y] eqn:Ef. assert (Hy : rows y = (rows (pio p) ++ [RowPP (nadd first dt) dt])%list).
    { assert (H := finished_rows (grad_norm (pG p)) (written true (RowPP (nadd first dt) dt) x)). rewrite Ef in H. cbn [snd] in H. rewrite H. unfold written. cbn [rows]. rewrite Hx. reflexivity. }
    cbn [pio pW pG ppn]. split. { eexists. split; [exact Hy|]. split; [constructor; [eexists; eexists; reflexivity|constructor]|]. split; [cbn; lia|congruence]. }
    split; [reflexivity|]. split; [reflexivity|]. split; [reflexivity|]. split; [intros _ _; eauto|]. unfold finished in Ef. split.
    + intros Hg. rewrite Hg in Ef. congruence.
    + congruence.
  - destruct (finished clk _ tol limit _) as [stop y] eqn:Ef. assert (Hy : rows y = rows (pio p)).
    { assert (H := finished_rows (grad_norm (pG p)) (mkIo (ck x + 1) (clk (ck x)) (rows x))). rewrite Ef in H. cbn [snd rows] in H. rewrite H, Hx. reflexivity. }
    cbn [pio pW pG ppn]. split. { apply (adds_rows _ _ _ (pio p)); [auto|apply adds_refl]. }
    split; [reflexivity|]. split; [reflexivity|]. split; [reflexivity|]. split; [congruence|]. unfold finished in Ef. split.
    + intros Hg. rewrite Hg in Ef. congruence.
    + intros _ _ Hg Hl. cbn [ck st_time] in Ef. rewrite Hg, Hl in Ef. congruence.
  - destruct (finished clk _ tol limit _) as [stop y] eqn:Ef. assert (Hy : rows y = rows (pio p)).
    { assert (H := finished_rows (grad_norm (pG p)) x). rewrite Ef in H. cbn [snd] in H. rewrite H, Hx. reflexivity. }
    cbn [pio pW pG ppn]. split. { apply (adds_rows _ _ _ (pio p)); [auto|apply adds_refl]. }
    split; [reflexivity|]. split; [reflexivity|]. split; [reflexivity|]. split; [congruence|]. unfold finished in Ef. split.
    + intros Hg. rewrite Hg in Ef. congruence.
    + congruence.
Qed.

(** one repetition of alsCP_PP ends after at most two rounds *)
Lemma pp_bench_rows solve lambda ratio rounds W G (x : io (N:=N)) : 2 <= rounds ->
  exists ret p, pp_algorithm clk rank0 solve V R tol ti limit 1 lambda ratio resprint true rounds W G x = Some (ret, p) /\ adds is_pp 1 x (pio p) /\
   (nltb (grad_norm G) tol = true -> nltb tol (grad_norm G) = false -> rows (pio p) = rows x /\ pG p = G /\ pW p = W) /\
   (rank0 = true -> nltb tol (nlit 10) = true -> (forall M, nltb (grad_norm M) tol = false) -> (forall c, nltb limit (nsub (clk (c + 1)) (clk c)) = false) -> exists a b, rows (pio p) = (rows x ++ [RowPP a b])%list).
Proof.
  intros Hr. destruct rounds as [|[|rounds]]; try lia. unfold pp_algorithm, driver. set (p0 := mkPP _ _ _ _ _). cbn [driver_loop].
  change (ppn p0) with (nlit (n:=N) 10). destruct (nltb tol (nlit 10)) eqn:E10; cbn [andb Z.leb Z.compare].
  2:{ eexists _, _. split; [reflexivity|]. cbn [pio p0]. split; [exact (adds_refl _ _ x)|]. split; [auto|discriminate]. }
  unfold approx_phase at 1. cbn [Z.leb Z.compare negb andb]. change (Z.to_nat (1 + 1 - 0)) with 2. cbn [approx_loop Nat.eqb negb andb]. rewrite due0 by auto. cbn [orb]. cbn [snd fst].
  set (p1 := mkPP _ _ _ _ _).
  assert (H1 := approx_check_row 0 n0 p1). destruct (approx_check _ _ _ _ _ _ _ _ 0 _ _) as [[stop fst1] q]. cbn [Z.eqb] in H1. destruct H1 as (A1 & A2 & A3 & A4 & _ & A5 & A6).
  change (pG p1) with G in *. change (pW p1) with W in *. 
  destruct stop.
  - change (0 + 1)%Z with 1%Z. rewrite A4. cbn [Z.leb Z.compare]. rewrite andb_true_r. destruct (nltb tol (grad_norm G)) eqn:Eg.
    + unfold approx_phase at 1. cbn [Z.leb Z.compare negb andb]. change (Z.to_nat (1 + 1 - 1)) with 1. cbn [approx_loop Nat.eqb negb andb]. rewrite orb_true_r. cbn [snd fst].
      set (p2 := mkPP _ _ _ _ _). assert (H2 := approx_check_row 1 n0 p2). destruct (approx_check _ _ _ _ _ _ _ _ 1 _ _) as [[stop2 fst2] q2]. cbn [Z.eqb] in H2.
      destruct H2 as (B1 & B2 & B3 & B4 & B7 & B5 & B6). change (pG p2) with (pG q) in *. change (pW p2) with (pW q) in *. change (pio p2) with (pio q) in *.
      assert (HT : adds is_pp 1 x (pio q2)).
      { apply (adds_trans is_pp 0 1 x (pio q)); auto. }
      assert (Hend : forall it s, (1 < it)%Z -> driver_loop tol 1 true (fun iter p => exact_phase clk rank0 V R tol ti limit 1 resprint (exact_sweep solve lambda V R) (als_grads solve lambda V (zmats V R) R) (Z.to_nat (1 + 1 - iter)) iter (zmats V R) p)
          (approx_phase clk rank0 V R tol ti limit 1 resprint true (pp_step_all solve lambda ratio V R) tt) rounds it s = Some (it, s)).
      { intros it s Hi. destruct rounds; cbn [driver_loop]; replace (it <=? 1)%Z with false by (symmetry; apply Z.leb_gt; lia); rewrite andb_false_r; reflexivity. }
      change (1 <=? 1)%Z with true. cbv iota. destruct stop2.
      * rewrite Hend by lia. eexists _, _. split; [reflexivity|]. split; [exact HT|]. split; [intros _ H; congruence|].
        intros Hr0 _ _ _. destruct (B7 Hr0 eq_refl) as (a & b & E). exists a, b. rewrite E. destruct A1 as (l & E1 & _ & L & _). destruct l; [|cbn in L; lia]. rewrite app_nil_r in E1. rewrite E1. reflexivity.
      * rewrite Hend by (cbn; lia). eexists _, _. split; [reflexivity|]. unfold pp_step_all. cbn [snd fst]. destruct (pp_sweep _ _ _ _ _ _ _) as [Ws dWs]. cbn [snd pio pW pG].
        split; [exact HT|]. split; [intros _ H; congruence|].
        intros Hr0 _ _ _. destruct (B7 Hr0 eq_refl) as (a & b & E). exists a, b. rewrite E. destruct A1 as (l & E1 & _ & L & _). destruct l; [|cbn in L; lia]. rewrite app_nil_r in E1. rewrite E1. reflexivity.
    + eexists _, _. split; [reflexivity|]. split; [apply (adds_trans is_pp 0 1 x (pio q)); [auto|apply adds_refl]|]. split.
      * intros _ _. destruct A1 as (l & E1 & _ & L & _). destruct l; [|cbn in L; lia]. rewrite app_nil_r in E1. auto.
      * intros Hr0 _ HM HL. assert (X := A6 Hr0 ltac:(discriminate) (HM G) HL). discriminate.
  - cbn [fst]. set (a1 := pp_step_all solve lambda ratio V R _ (tt, q)).
    assert (Ea : pio (snd a1) = pio q) by (unfold a1, pp_step_all; cbn [snd]; destruct (pp_sweep _ _ _ _ _ _ _); reflexivity).
    change (0 + 1)%Z with 1%Z. change (Nat.modulo 1 15) with 1. cbn [Nat.eqb orb]. rewrite due1. cbn [orb].
    assert (H2 := approx_check_row 1 fst1 (snd a1)). destruct (approx_check _ _ _ _ _ _ _ _ 1 _ _) as [[stop2 fst2] q2]. cbn [Z.eqb] in H2.
    destruct H2 as (B1 & B2 & B3 & B4 & B7 & B5 & B6). rewrite Ea in B1, B7.
    assert (HT : adds is_pp 1 x (pio q2)) by (apply (adds_trans is_pp 0 1 x (pio q)); auto).
    assert (Hrow : rank0 = true -> exists a b, rows (pio q2) = (rows x ++ [RowPP a b])%list).
    { intros Hr0. destruct (B7 Hr0 eq_refl) as (a & b & E). exists a, b. rewrite E. destruct A1 as (l & E1 & _ & L & _). destruct l; [|cbn in L; lia]. rewrite app_nil_r in E1. rewrite E1. reflexivity. }
    assert (Hcontra : nltb (grad_norm G) tol = true -> False) by (intros X; specialize (A5 X); discriminate).
    destruct stop2.
    + change (1 + 1 <=? 1)%Z with false. rewrite andb_false_r. eexists _, _. split; [reflexivity|]. split; [exact HT|]. split; [intros X; destruct (Hcontra X)|auto].
    + set (a2 := pp_step_all solve lambda ratio V R _ (fst a1, q2)).
      assert (Eb : pio (snd a2) = pio q2) by (unfold a2, pp_step_all; cbn [snd]; destruct (pp_sweep _ _ _ _ _ _ _); reflexivity).
      change (1 + 1 + 1 <=? 1)%Z with false. rewrite andb_false_r. eexists _, _. split; [reflexivity|]. rewrite Eb. split; [exact HT|]. split; [intros X; destruct (Hcontra X)|auto].
Qed.

Lemma dt_rep_rows solve lambda F W G (x : io (N:=N)) :
  let '(_, s) := dt_algorithm clk rank0 V tol limit 1 resprint true solve R lambda F W G x in
  adds is_dt 1 x (cpio s) /\ (nltb (grad_norm G) tol = true -> rows (cpio s) = rows x /\ cpG s = G /\ cpW s = W) /\
  (rank0 = true -> (forall M, nltb (grad_norm M) tol = false) -> (forall c, nltb limit (nsub (clk (c + 4)) (nadd (clk c) (nsub (clk (c + 2)) (clk (c + 1))))) = false) -> exists t, rows (cpio s) = (rows x ++ [RowDT t])%list).
Proof.
  assert (H := dt_bench_rows clk rank0 V tol limit resprint Hrp solve R lambda F W G x). destruct (dt_algorithm _ _ _ _ _ _ _ _ _ _ _ _ _ _) as [ret s]. destruct H as [H1 H2].
  split; [|split].
  - destruct (first_stops clk tol limit G x).
    + destruct (H1 eq_refl) as [E _]. apply (adds_rows _ _ _ x); [auto|apply adds_refl].
    + destruct (H2 eq_refl) as [t E]. exists (if rank0 then [RowDT t] else []). split; [exact E|]. destruct rank0.
      * split; [constructor; [eexists; reflexivity|constructor]|]. split; [cbn; lia|congruence].
      * split; [constructor|]. split; [cbn; lia|reflexivity].
  - intros Hg. destruct H1 as (A & B & C); [unfold first_stops; rewrite Hg; reflexivity|]. auto.
  - intros Hr Hg Hl. destruct H2 as [t E]; [unfold first_stops; rewrite Hg, Hl; reflexivity|]. exists t. rewrite Hr in E. exact E.
Qed.
(** Tucker: the only check is at iteration 1 *)
Lemma tdt_rep_rows svd ranks core W (x : io (N:=N)) :
  let '(_, k) := tdt_algorithm clk rank0 V tol limit 1 resprint true svd ranks core W x in
  exists t, rows (kio k) = (rows x ++ if rank0 then [RowDT t] else [])%list.
Proof.
  unfold tdt_algorithm. change (Z.to_nat (1 + 1)) with 2%nat. cbn [tdt_loop]. unfold tk_due at 1. cbn [Z.eqb negb]. rewrite andb_false_r. cbn [orb].
  cbn [kW kprev kdW kdn kio]. change (0 + 1)%Z with 1%Z. unfold tk_due at 1. cbn [Z.eqb Pos.eqb]. rewrite orb_true_r. cbn [orb].
  unfold tdt_check. cbn [kio kW kprev kdW]. destruct (timed clk _) as [dt y] eqn:Et. assert (Hy : rows y = rows x) by (unfold timed in Et; injection Et as _ <-; reflexivity).
  destruct (finished _ _ _ _ _) as [stop y'] eqn:Ef. assert (Ey : rows y' = (rows x ++ if rank0 then [RowDT dt] else [])%list).
  { match type of Ef with finished _ ?g _ _ ?z = _ => assert (H := finished_rows g z) end. rewrite Ef in H. cbn [snd] in H. rewrite H. unfold written. destruct rank0; cbn [rows]; rewrite Hy; [reflexivity|rewrite app_nil_r; reflexivity]. }
  destruct stop; cbn [kio]; eauto.
Qed.
Lemma tk_check_row it first (k : tk_state (N:=N)) :
  let '(stop, _, q) := tk_approx_check clk rank0 V tol limit 1 true it first k in
  adds is_pp (if Z.eqb it 1 then 1 else 0) (kio k) (kio q) /\ (rank0 = true -> it = 1%Z -> exists a b, rows (kio q) = (rows (kio k) ++ [RowPP a b])%list) /\
  (it = 1%Z -> stop = true) /\ kdn q = core_dist V (kW k) (kprev k) /\
  (stop = true -> it <> 1%Z -> nltb (core_dist V (kW k) (kprev k)) tol = true \/ rank0 = false \/ exists c, nltb limit (nsub (clk (c + 1)) (clk c)) = true).
Proof.
  unfold tk_approx_check. destruct (timed clk (kio k)) as [dt x] eqn:Et. assert (Hx : rows x = rows (kio k)) by (unfold timed in Et; injection Et as _ <-; reflexivity). clear Et.
  assert (HF : forall z, let '(stop, y) := finished clk (core_dist V (kW k) (kprev k)) tol limit z in rows y = rows z /\
     (it = 1%Z -> stop || (it =? 1)%Z = true) /\
     (stop || (it =? 1)%Z = true -> it <> 1%Z -> nltb (core_dist V (kW k) (kprev k)) tol = true \/ nltb limit (nsub (clk (ck z)) (st_time z)) = true)).
  { intros z. assert (Hf := finished_rows (core_dist V (kW k) (kprev k)) z). destruct (finished _ _ _ _ z) as [stop y] eqn:Ef. cbn [snd] in Hf. split; [exact Hf|]. split; [intros ->; apply orb_true_r|].
    intros Hs Hi. apply Z.eqb_neq in Hi. rewrite Hi, orb_false_r in Hs. subst stop. unfold finished in Ef. destruct (nltb (core_dist V (kW k) (kprev k)) tol); [auto|]. right. injection Ef as E _. exact E. }
  destruct rank0 eqn:Er; [destruct (Z.eqb_spec it 1) as [->|Hi]|].
  - match goal with |- context [finished clk ?g tol limit ?z] => specialize (HF z); destruct (finished clk g tol limit z) as [stop y] end. destruct HF as (Hf & Hit & Hst). cbn [kio kdn].
    unfold written in Hf. cbn [rows] in Hf. rewrite Hx in Hf. split. { eexists. split; [exact Hf|]. split; [constructor; [eexists; eexists; reflexivity|constructor]|]. split; [cbn; lia|congruence]. }
    split; [intros _ _; eauto|]. split; [exact Hit|]. split; [reflexivity|]. intros _ X. congruence.
  - match goal with |- context [finished clk ?g tol limit ?z] => specialize (HF z); destruct (finished clk g tol limit z) as [stop y] end. destruct HF as (Hf & Hit & Hst). cbn [kio kdn].
    cbn [rows] in Hf. rewrite Hx in Hf. split; [apply (adds_rows _ _ _ (kio k)); [auto|apply adds_refl]|]. split; [congruence|]. split; [congruence|]. split; [reflexivity|].
    intros X Y. destruct (Hst X Y) as [Z|Z]; [auto|]. right. right. cbn [ck st_time] in Z. eauto.
  - match goal with |- context [finished clk ?g tol limit ?z] => specialize (HF z); destruct (finished clk g tol limit z) as [stop y] end. destruct HF as (Hf & Hit & Hst). cbn [kio kdn].
    rewrite Hx in Hf. split; [apply (adds_rows _ _ _ (kio k)); [auto|apply adds_refl]|]. split; [congruence|]. split; [exact Hit|]. split; [reflexivity|]. intros X Y. destruct (Hst X Y); auto.
Qed.
Lemma tk_rep_rows svd ranks rounds core W (x : io (N:=N)) : 2 <= rounds ->
  exists ret k, tk_algorithm clk rank0 svd V ranks tol limit 1 resprint true ti rounds core W x = Some (ret, k) /\ adds is_pp 1 x (kio k) /\
   (rank0 = true -> nltb tol (nlit 10) = true -> nltb (core_dist V W core) tol = false -> (forall c, nltb limit (nsub (clk (c + 1)) (clk c)) = false) -> exists a b, rows (kio k) = (rows x ++ [RowPP a b])%list).
Proof.
  intros Hr. destruct rounds as [|[|rounds]]; try lia. unfold tk_algorithm. set (p0 := mkTk _ _ _ _ _ _). cbn [tk_driver_loop].
  change (kdn p0) with (nlit (n:=N) 10). destruct (nltb tol (nlit 10)) eqn:E10; cbn [andb Z.leb Z.compare].
  2:{ eexists _, _. split; [reflexivity|]. cbn [kio p0]. split; [exact (adds_refl _ _ x)|]. discriminate. }
  unfold tk_approx_phase at 1. cbn [Z.leb Z.compare negb andb]. change (Z.to_nat (1 + 1 - 0)) with 2. cbn [tk_approx_loop Nat.eqb negb andb]. rewrite orb_true_r.
  set (p1 := mkTk _ _ _ _ _ _).
  assert (H1 := tk_check_row 0 n0 p1). destruct (tk_approx_check _ _ _ _ _ _ _ 0 _ _) as [[stop fst1] q]. cbn [Z.eqb] in H1. destruct H1 as (A1 & _ & _ & A4 & A5).
  change (kW p1) with W in *. change (kprev p1) with core in *.
  assert (A0 : rows (kio q) = rows x). { destruct A1 as (l & E1 & _ & L & _). destruct l; [|cbn in L; lia]. rewrite app_nil_r in E1. exact E1. }
  assert (Hend : forall ti it s, (1 < it)%Z -> tk_driver_loop clk rank0 svd V ranks tol limit 1 resprint true rounds ti it s = Some (it, s)).
  { intros ti' it s Hi. destruct rounds; cbn [tk_driver_loop]; replace (it <=? 1)%Z with false by (symmetry; apply Z.leb_gt; lia); rewrite andb_false_r; reflexivity. }
  destruct stop.
  - change (0 + 1)%Z with 1%Z. cbn [Z.leb Z.compare]. rewrite andb_true_r. rewrite A4. destruct (nltb tol (core_dist V W core)) eqn:Eg.
    + unfold tk_approx_phase at 1. change (1 <=? 1)%Z with true. cbn [negb andb]. change (Z.to_nat (1 + 1 - 1)) with 1. cbn [tk_approx_loop Nat.eqb negb andb]. rewrite orb_true_r.
      set (p2 := mkTk _ _ _ _ _ _). assert (H2 := tk_check_row 1 n0 p2). destruct (tk_approx_check _ _ _ _ _ _ _ 1 _ _) as [[stop2 fst2] q2]. cbn [Z.eqb] in H2.
      destruct H2 as (B1 & B2 & B3 & _ & _). rewrite (B3 eq_refl). change (kio p2) with (kio q) in *. rewrite Hend by lia. eexists _, _. split; [reflexivity|].
      split; [apply (adds_rows0 _ _ (kio q)); auto|]. intros Hr0 _ _ _. rewrite <- A0. auto.
    + eexists _, _. split; [reflexivity|]. split; [apply (adds_rows _ _ _ x); [auto|apply adds_refl]|].
      intros Hr0 _ Hc Hl. destruct A5 as [X|[X|[t X]]]; [auto|discriminate| | |]; [congruence|congruence|rewrite Hl in X; discriminate].
  - change (0 + 1)%Z with 1%Z. unfold tk_due at 1. cbn [Z.eqb Pos.eqb]. rewrite orb_true_r. cbn [orb].
    set (p2 := tk_step svd V ranks W q). assert (Eb : kio p2 = kio q) by (unfold p2, tk_step; destruct (tpp_sweep _ _ _ _ _); reflexivity).
    assert (H2 := tk_check_row 1 fst1 p2). destruct (tk_approx_check _ _ _ _ _ _ _ 1 _ _) as [[stop2 fst2] q2]. cbn [Z.eqb] in H2.
    destruct H2 as (B1 & B2 & B3 & _ & _). rewrite (B3 eq_refl). rewrite Eb in *. change (1 + 1 <=? 1)%Z with false. rewrite andb_false_r.
    eexists _, _. split; [reflexivity|]. split; [apply (adds_rows0 _ _ (kio q)); auto|]. intros Hr0 _ _ _. rewrite <- A0. auto.
Qed.
End Log.

Lemma dt_rows_map {N : num} (l : list (row (N:=N))) : Forall is_dt l -> exists ts, l = map (RowDT (N:=N)) ts.
Proof. induction 1 as [|r l [t ->] _ [ts ->]]; [exists []; reflexivity|exists (t :: ts); reflexivity]. Qed.
Lemma pp_rows_map {N : num} (l : list (row (N:=N))) : Forall is_pp l -> exists ts, l = map (fun ab => RowPP (N:=N) (fst ab) (snd ab)) ts.
Proof. induction 1 as [|r l (a & b & ->) _ [ts ->]]; [exists []; reflexivity|exists ((a, b) :: ts); reflexivity]. Qed.
Lemma app_eq_len {A} (x a b : list A) : (x ++ a = x ++ b -> a = b)%list.
Proof. apply app_inv_head. Qed.
Lemma again_same {A} (g : A -> option A) (P : A -> Prop) a0 : (forall a, P a -> exists a', g a = Some a' /\ P a') -> P a0 -> forall n, exists a', again n g a0 = Some a' /\ P a'.
Proof. intros H H0 n. revert a0 H0. induction n as [|n IH]; intros a0 H0; cbn [again]; [eauto|]. destruct (H a0 H0) as (a' & -> & H1). apply IH. exact H1. Qed.

(** every repetition of the CP benchmark ends; the log has at most one row per repetition, first the dimension-tree times and then the
    pairwise-perturbation times; exactly one each if no check can stop a repetition; none if the start gradient is already below the tolerance *)
Theorem C62_cp_log :
  forall (N : num), ring_laws N ->
  forall (LA : lapack N), svd_shaped (svd LA) ->
  forall (atof : string -> N) (clock : nat -> N) (rank0 same : bool) (env : environment) (fuel base tf rounds : nat)
    (argv : list string) (x : io) (V : tensor N),
  let st := pp_bench_settings atof argv in
  let R := Z.to_nat (s_rank st) in
  (forall k ls, lens (rng env k ls) = ls /\ wf (rng env k ls)) ->
  String.get 0 (s_model st) = Some "C"%char -> String.get 0 (s_tensor st) <> Some "o"%char ->
  run_tensor env fuel st = Ok V -> wf V -> order V = 4 \/ 6 <= order V <= 9 -> order V < tf ->
  (forall y : N, neqb y n0 = true -> y = n0) -> (forall y : N, neqb y n1 = true -> y = n1) -> s_resprint st <> 0%Z -> 2 <= rounds ->
  let W := map (fun i => rng env (base + 2 * i) [nth i (lens V) 0; R]) (seq 0 (order V)) in
  let G := map (fun i => rng env (base + 2 * i + 1) [nth i (lens V) 0; R]) (seq 0 (order V)) in
  let tol := nmul (s_tol st) (norm2 V) in
  let reps := Z.to_nat (s_maxiter st) in
  exists r dts pps, pp_bench atof LA clock rank0 env fuel base tf rounds same argv x = Ok (Some r) /\ b_W r = W /\
    rows (b_dt r) = (rows x ++ map (RowDT (N:=N)) dts)%list /\ rows (b_pp r) = (rows (b_dt r) ++ map (fun ab => RowPP (N:=N) (fst ab) (snd ab)) pps)%list /\
    List.length dts <= reps /\ List.length pps <= reps /\ (rank0 = false -> dts = [] /\ pps = []) /\
    (rank0 = true -> (forall M, nltb (grad_norm M) tol = false) -> (forall c, nltb (s_timelimit st) (nsub (clock (c + 4)) (nadd (clock c) (nsub (clock (c + 2)) (clock (c + 1))))) = false) -> List.length dts = reps) /\
    (rank0 = true -> nltb tol (nlit 10) = true -> (forall M, nltb (grad_norm M) tol = false) -> (forall c, nltb (s_timelimit st) (nsub (clock (c + 1)) (clock c)) = false) -> List.length pps = reps) /\
    (nltb (grad_norm G) tol = true -> nltb tol (grad_norm G) = false -> dts = [] /\ pps = [] /\ b_G r = G).
Proof.
  intros N RL LA Hsh atof clk rank0 same env fuel base tf rounds argv x V st R Hrng HC Hno EV HV Ho Htf Hz H1 Hrp Hrd W G tol reps.
  assert (E := C62_pp_bench_cp N RL LA Hsh atof clk rank0 same env fuel base tf rounds argv x V Hrng HC Hno EV HV Ho Htf Hz H1 Hrp). cbv zeta in E. fold st R W G in E. 
  unfold cp_bench in E. fold R in E. fold tol reps in E.
  match type of E with context [again reps ?g (G, x)] => set (dtr := g) in * end.
  destruct (again_adds clk rank0 is_dt dtr) with (n := reps) (a := G) (x := x) as (G1 & x1 & E1 & l1 & R1 & F1 & L1 & Z1).
  { intros g y. unfold dtr. assert (H := dt_rep_rows clk rank0 V tol (s_timelimit st) (s_resprint st) R Hrp (pinv_solve (svd LA) R) (s_lambda st) (zmats V R) W g y).
    destruct (dt_algorithm _ _ _ _ _ _ _ _ _ _ _ _ _ _) as [ret s]. eexists _, _. split; [reflexivity|apply H]. }
  rewrite E1 in E. match type of E with context [again reps ?g (G1, x1)] => set (ppr := g) in * end.
  destruct (again_adds clk rank0 is_pp ppr) with (n := reps) (a := G1) (x := x1) as (G2 & x2 & E2 & l2 & R2 & F2 & L2 & Z2).
  { intros g y. unfold ppr. destruct (pp_bench_rows clk rank0 V tol (s_pp_res_tol st) (s_timelimit st) (s_resprint st) R Hrp (pinv_solve (svd LA) R) (s_lambda st) (s_magni st) rounds W g y Hrd) as (ret & p & Ep & Ha & _).
    rewrite Ep. eexists _, _. split; [reflexivity|exact Ha]. }
  rewrite E2 in E. destruct (dt_rows_map l1 F1) as [dts ->]. destruct (pp_rows_map l2 F2) as [pps ->].
  exists (mkBench x1 x2 W G2 tnil), dts, pps. cbn [b_W b_dt b_pp b_G]. rewrite map_length in L1, L2.
  split; [exact E|]. split; [reflexivity|]. split; [exact R1|]. split; [exact R2|]. split; [exact L1|]. split; [exact L2|].
  split. { intros Hr0. split; [specialize (Z1 Hr0); destruct dts; [reflexivity|discriminate]|specialize (Z2 Hr0); destruct pps; [reflexivity|discriminate]]. }
  split.
  { intros Hr0 HM HL. destruct (again_exact is_dt dtr) with (n := reps) (a := G) (x := x) as (a' & y & l & Ea & Er & _ & Ln).
    - intros g y. unfold dtr. assert (H := dt_rep_rows clk rank0 V tol (s_timelimit st) (s_resprint st) R Hrp (pinv_solve (svd LA) R) (s_lambda st) (zmats V R) W g y).
      destruct (dt_algorithm _ _ _ _ _ _ _ _ _ _ _ _ _ _) as [ret s]. destruct H as (_ & _ & H). destruct (H Hr0 HM HL) as [t Et]. eexists _, _, _. split; [reflexivity|]. split; [exact Et|]. eexists; reflexivity.
    - rewrite E1 in Ea. injection Ea as <- <-. rewrite R1 in Er. apply app_inv_head in Er. rewrite <- Ln, <- Er, map_length. reflexivity. }
  split.
  { intros Hr0 H10 HM HL. destruct (again_exact is_pp ppr) with (n := reps) (a := G1) (x := x1) as (a' & y & l & Ea & Er & _ & Ln).
    - intros g y. unfold ppr. destruct (pp_bench_rows clk rank0 V tol (s_pp_res_tol st) (s_timelimit st) (s_resprint st) R Hrp (pinv_solve (svd LA) R) (s_lambda st) (s_magni st) rounds W g y Hrd) as (ret & p & Ep & _ & _ & Hb).
      rewrite Ep. destruct (Hb Hr0 H10 HM HL) as (a & b & Eab). eexists _, _, _. split; [reflexivity|]. split; [exact Eab|]. eexists _, _; reflexivity.
    - rewrite E2 in Ea. injection Ea as <- <-. rewrite R2 in Er. apply app_inv_head in Er. rewrite <- Ln, <- Er, map_length. reflexivity. }
  intros Hg Hg'.
  destruct (again_same dtr (fun b => rows (snd b) = rows x /\ fst b = G) (G, x)) with (n := reps) as (b1 & Eb1 & [P1 P2]); [|auto|].
  { intros [g y] [Hy Hgg]. cbn [fst snd] in *. subst g. unfold dtr. assert (H := dt_rep_rows clk rank0 V tol (s_timelimit st) (s_resprint st) R Hrp (pinv_solve (svd LA) R) (s_lambda st) (zmats V R) W G y).
    destruct (dt_algorithm _ _ _ _ _ _ _ _ _ _ _ _ _ _) as [ret s]. destruct H as (_ & H & _). destruct (H Hg) as (A & B & _). eexists. split; [reflexivity|]. cbn [fst snd]. rewrite A, B. auto. }
  rewrite E1 in Eb1. injection Eb1 as <-. cbn [fst snd] in *. subst G1.
  destruct (again_same ppr (fun b => rows (snd b) = rows x1 /\ fst b = G) (G, x1)) with (n := reps) as (b2 & Eb2 & [Q1 Q2]); [|auto|].
  { intros [g y] [Hy Hgg]. cbn [fst snd] in *. subst g. unfold ppr. destruct (pp_bench_rows clk rank0 V tol (s_pp_res_tol st) (s_timelimit st) (s_resprint st) R Hrp (pinv_solve (svd LA) R) (s_lambda st) (s_magni st) rounds W G y Hrd) as (ret & p & Ep & _ & Hb & _).
    rewrite Ep. destruct (Hb Hg Hg') as (A & B & _). eexists. split; [reflexivity|]. cbn [fst snd]. rewrite A, B. auto. }
  rewrite E2 in Eb2. injection Eb2 as <-. cbn [fst snd] in *.
  split; [|split; [|exact Q2]].
  - rewrite P1 in R1. rewrite <- (app_nil_r (rows x)) in R1 at 1. apply app_inv_head in R1. destruct dts; [reflexivity|discriminate].
  - rewrite Q1 in R2. rewrite <- (app_nil_r (rows x1)) in R2 at 1. apply app_inv_head in R2. destruct pps; [reflexivity|discriminate].
Qed.
Print Assumptions C62_cp_log.
(** Tucker: process 0 writes exactly maxiter dimension-tree times *)
Theorem C62_tucker_log :
  forall (N : num), ring_laws N -> sqrt_nonneg (N:=N) ->
  forall (LA : lapack N), svd_trunc_shaped (svd LA) ->
  forall (atof : string -> N) (clock : nat -> N) (rank0 same : bool) (env : environment) (fuel base tf rounds : nat)
    (argv : list string) (x : io) (V : tensor N),
  let st := pp_bench_settings atof argv in
  let R := Z.to_nat (s_rank st) in
  (forall k ls, lens (rng env k ls) = ls /\ wf (rng env k ls)) ->
  String.get 0 (s_model st) = Some "T"%char -> String.get 0 (s_tensor st) <> Some "o"%char ->
  run_tensor env fuel st = Ok V -> wf V -> order V = Z.to_nat (s_dim st) -> order V = 4 \/ 6 <= order V <= 9 -> order V < tf ->
  ranks_ok (lens V) (repeat R (order V)) -> s_resprint st <> 0%Z -> 2 <= rounds ->
  let W := map (fun i => rng env (base + 2 * i) [nth i (lens V) 0; R]) (seq 0 (order V)) in
  let tol := nmul (s_tol st) (norm2 V) in
  let reps := Z.to_nat (s_maxiter st) in
  exists r dts pps, pp_bench atof LA clock rank0 env fuel base tf rounds same argv x = Ok (Some r) /\
    rows (b_dt r) = (rows x ++ map (RowDT (N:=N)) dts)%list /\ rows (b_pp r) = (rows (b_dt r) ++ map (fun ab => RowPP (N:=N) (fst ab) (snd ab)) pps)%list /\
    List.length dts = (if rank0 then reps else 0) /\ List.length pps <= reps /\ (rank0 = false -> pps = []) /\
    (rank0 = true -> nltb tol (nlit 10) = true -> (forall c, nltb (core_dist V W c) tol = false) -> (forall c, nltb (s_timelimit st) (nsub (clock (c + 1)) (clock c)) = false) -> List.length pps = reps).
Proof.
  intros N RL Hsq LA Hsvd atof clk rank0 same env fuel base tf rounds argv x V st R Hrng HT Hno EV HV Hdim Ho Htf HR Hrp Hrd W tol reps.
  assert (E := C62_pp_bench_tucker N RL Hsq LA Hsvd atof clk rank0 same env fuel base tf rounds argv x V Hrng HT Hno EV HV Hdim Ho Htf HR Hrp). cbv zeta in E. fold st R in E. 
  fold W in E. unfold tucker_bench in E. fold reps tol in E.
  match type of E with context [again reps ?g (zeros ?rk, x)] => set (dtr := g) in *; set (c0 := zeros rk) in * end.
  assert (HD : exists c1 x1 dts, again reps dtr (c0, x) = Some (c1, x1) /\ rows x1 = (rows x ++ map (RowDT (N:=N)) dts)%list /\ List.length dts = (if rank0 then reps else 0)).
  { destruct rank0 eqn:Er.
    - destruct (again_exact is_dt dtr) with (n := reps) (a := c0) (x := x) as (a' & y & l & Ea & El & Fl & Ln).
      + intros c y. unfold dtr. assert (H := tdt_rep_rows clk true V tol (s_timelimit st) (s_resprint st) (svd LA) (repeat R (order V)) c W y).
        destruct (tdt_algorithm _ _ _ _ _ _ _ _ _ _ _ _ _) as [ret k]. destruct H as [t H]. eexists _, _, _. split; [reflexivity|]. split; [exact H|]. eexists; reflexivity.
      + destruct (dt_rows_map l Fl) as [dts ->]. exists a', y, dts. rewrite map_length in Ln. auto.
    - destruct (again_same dtr (fun b => rows (snd b) = rows x) (c0, x)) with (n := reps) as ([c1 x1] & Eb & P1); [|reflexivity|].
      + intros [c y] Hy. cbn [snd] in *. unfold dtr. assert (H := tdt_rep_rows clk false V tol (s_timelimit st) (s_resprint st) (svd LA) (repeat R (order V)) c W y).
        destruct (tdt_algorithm _ _ _ _ _ _ _ _ _ _ _ _ _) as [ret k]. destruct H as [t H]. eexists. split; [reflexivity|]. cbn [snd]. rewrite H, app_nil_r. exact Hy.
      + exists c1, x1, []. cbn [snd] in P1. rewrite app_nil_r. auto. }
  destruct HD as (c1 & x1 & dts & E1 & R1 & L1). rewrite E1 in E. match type of E with context [again reps ?g (c1, x1)] => set (ppr := g) in * end.
  destruct (again_adds clk rank0 is_pp ppr) with (n := reps) (a := c1) (x := x1) as (c2 & x2 & E2 & l2 & R2 & F2 & L2 & Z2).
  { intros c y. unfold ppr. destruct (tk_rep_rows clk rank0 V tol (s_pp_res_tol st) (s_timelimit st) (s_resprint st) R (svd LA) (repeat R (order V)) rounds c W y Hrd) as (ret & p & Ep & Ha & _).
    rewrite Ep. eexists _, _. split; [reflexivity|exact Ha]. }
  destruct (pp_rows_map l2 F2) as [pps ->]. rewrite E2 in E. rewrite map_length in L2.
  eexists _, dts, pps. split; [exact E|]. cbn [b_dt b_pp]. split; [exact R1|]. split; [exact R2|]. split; [exact L1|]. split; [exact L2|]. split; [intros Hr0; specialize (Z2 Hr0); destruct pps; [reflexivity|discriminate]|].
  intros Hr0 H10 HM HL. destruct (again_exact is_pp ppr) with (n := reps) (a := c1) (x := x1) as (a' & y & l & Ea & Er & _ & Ln).
  - intros c y. unfold ppr. destruct (tk_rep_rows clk rank0 V tol (s_pp_res_tol st) (s_timelimit st) (s_resprint st) R (svd LA) (repeat R (order V)) rounds c W y Hrd) as (ret & p & Ep & _ & Hb).
    rewrite Ep. destruct (Hb Hr0 H10 (HM c) HL) as (a & b & Eab). eexists _, _, _. split; [reflexivity|]. split; [exact Eab|]. eexists _, _; reflexivity.
  - rewrite E2 in Ea. injection Ea as <- <-. rewrite R2 in Er. apply app_inv_head in Er. rewrite <- Ln, <- Er, map_length. reflexivity.
Qed.
Print Assumptions C62_tucker_log.
