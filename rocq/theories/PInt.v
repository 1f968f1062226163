(** The 32-bit counters of MInt.v against the unbounded ones *)
From Coq Require Import List ZArith QArith Qround Bool Arith Lia.
From Verif Require Import Base Num Tensor F64 MCommon MCP MTucker MOpt MOptLR MCPD MInt Spec26 PCPD2.
Import ListNotations.
Local Close Scope Q_scope.

Lemma or_refl {A} (a : res A) : or_ub a a. Proof. left; auto. Qed.
Lemma or_bind {A B} (a b : res A) (f g : A -> res B) : or_ub a b -> (forall x, b = Ok x -> or_ub (f x) (g x)) -> or_ub (bind a f) (bind b g).
Proof.
  intros [->| ->] H; [|right; auto]. destruct b as [x|e]; cbn [bind]; [apply H; auto|left; auto].
Qed.
Lemma eq_bind {A B} (a b : res A) (f g : A -> res B) : a = b -> (forall x, b = Ok x -> f x = g x) -> bind a f = bind b g.
Proof. intros -> H. destruct b; cbn [bind]; auto. Qed.
Lemma chk_int_ok z : (INT_MIN <= z <= INT_MAX)%Z -> chk_int z = Ok z.
Proof. intros H. unfold chk_int, is_int. destruct (Z.leb_spec INT_MIN z); [|lia]. destruct (Z.leb_spec z INT_MAX); [|lia]. auto. Qed.
Lemma chk_int_cases z : chk_int z = Ok z \/ chk_int z = Err UB.
Proof. unfold chk_int. destruct (is_int z); auto. Qed.
Lemma chk_int_big z : (INT_MAX < z)%Z -> chk_int z = Err UB.
Proof. intros H. unfold chk_int, is_int. destruct (Z.leb_spec z INT_MAX); [lia|]. rewrite andb_false_r. auto. Qed.
Lemma int_add_ok a b : (INT_MIN <= a + b <= INT_MAX)%Z -> int_add a b = Ok (a + b)%Z.
Proof. apply chk_int_ok. Qed.
Lemma int_sub_ok a b : (INT_MIN <= a - b <= INT_MAX)%Z -> int_sub a b = Ok (a - b)%Z.
Proof. apply chk_int_ok. Qed.

Lemma rounds_0 it mx : rounds it mx = O -> (mx < it)%Z.
Proof. unfold rounds. lia. Qed.
Lemma rounds_S it mx n : rounds it mx = S n -> (it <= mx)%Z /\ rounds (it + 1) mx = n.
Proof. unfold rounds. lia. Qed.

Lemma for_iter_range {S} (body : Z -> S -> res (flow * S)) mx : forall n it s f it' s', rounds it mx = n ->
  for_iter n it body s = Ok (f, it', s') -> (it <= it' <= Z.max it (mx + 1))%Z.
Proof.
  induction n as [|n IH]; intros it s f it' s' Hn E; cbn [for_iter] in E.
  - injection E as <- <- <-. lia.
  - destruct (rounds_S _ _ _ Hn) as [Hle Hn']. destruct (body it s) as [[g s1]|e]; cbn [bind] in E; [|discriminate].
    destruct g; try (injection E as <- <- <-; lia). assert (A := IH _ _ _ _ _ Hn' E). lia.
Qed.
Lemma for_int_or {S} (body body' : Z -> S -> res (flow * S)) mx : (forall it s, or_ub (body' it s) (body it s)) ->
  forall n it s, rounds it mx = n -> or_ub (for_int n it mx body' s) (for_iter n it body s).
Proof.
  intros Hb. induction n as [|n IH]; intros it s Hn; cbn [for_int for_iter].
  - assert (A := rounds_0 _ _ Hn). destruct (Z.leb_spec it mx); [lia|]. apply or_refl.
  - destruct (rounds_S _ _ _ Hn) as [Hle Hn']. destruct (Z.leb_spec it mx) as [_|]; [|lia].
    apply or_bind; [apply Hb|]. intros [f s1] _. destruct f; try apply or_refl.
    unfold int_add. destruct (chk_int_cases (it + 1)) as [->| ->]; cbn [bind]; [apply IH; auto|right; auto].
Qed.
Lemma for_int_eq {S} (body body' : Z -> S -> res (flow * S)) mx : (mx < INT_MAX)%Z ->
  forall n it s, (INT_MIN <= it)%Z -> rounds it mx = n -> (forall j s, (it <= j <= mx)%Z -> body' j s = body j s) ->
  for_int n it mx body' s = for_iter n it body s.
Proof.
  intros Hm. induction n as [|n IH]; intros it s Hi Hn Hb; cbn [for_int for_iter].
  - assert (A := rounds_0 _ _ Hn). destruct (Z.leb_spec it mx); [lia|]. auto.
  - destruct (rounds_S _ _ _ Hn) as [Hle Hn']. destruct (Z.leb_spec it mx) as [_|]; [|lia].
    rewrite Hb by lia. apply eq_bind; auto. intros [f s1] _. destruct f; auto.
    rewrite int_add_ok by lia. cbn [bind]. apply IH; auto; [lia|]. intros j s2 Hj. apply Hb; lia.
Qed.
Lemma verdict_or it mx : or_ub (verdict it mx) (Ok (negb (Z.eqb it (mx + 1)))).
Proof. unfold verdict, int_add. destruct (chk_int_cases (mx + 1)) as [->| ->]; [left|right]; auto. Qed.
Lemma verdict_eq it mx : (INT_MIN <= mx < INT_MAX)%Z -> verdict it mx = Ok (negb (Z.eqb it (mx + 1))).
Proof. intros H. unfold verdict. rewrite int_add_ok; auto. lia. Qed.
Lemma verdict_bad it : verdict it INT_MAX = Err UB.
Proof. reflexivity. Qed.
Lemma bench_or b f it : or_ub (bench_incr b f it) (Ok (match f with Return => it | _ => if b then (it + 1)%Z else it end)).
Proof. unfold bench_incr, int_add. destruct f, b; try apply or_refl; destruct (chk_int_cases (it + 1)) as [->| ->]; [left|right|left|right]; auto. Qed.
Lemma bench_eq b f it : (INT_MIN <= it < INT_MAX)%Z \/ b = false -> bench_incr b f it = Ok (match f with Return => it | _ => if b then (it + 1)%Z else it end).
Proof. intros H. unfold bench_incr. destruct f, b; auto; destruct H as [H|H]; try discriminate; rewrite int_add_ok; auto; lia. Qed.

Ltac orb := apply or_bind; [apply or_refl|intros ? _].

Section CP.
Context {N : num} (LA : lapack N) (clk : nat -> N) (rank0 : bool).

Lemma pp_while_or dtsub sub dtsub' sub' (tol : N) mx (bench : bool) :
  (forall it p, or_ub (dtsub' it p) (dtsub it p)) -> (forall it p, or_ub (sub' it p) (sub it p)) ->
  forall wf it p, or_ub (pp_while wf dtsub' sub' tol mx bench it p) (pp_while wf dtsub sub tol mx bench it p).
Proof.
  intros H1 H2. induction wf as [|wf IH]; intros it p; cbn [pp_while]; destruct (_ && _)%bool; try apply or_refl.
  apply or_bind; [destruct bench; [apply or_refl|apply H1]|]. intros [it1 p1] _.
  apply or_bind; [apply H2|]. intros [it2 p2] _. apply IH.
Qed.
Lemma pp_while_eq dtsub sub dtsub' sub' (tol : N) mx (bench : bool) :
  (bench = false -> forall it p, (0 <= it <= mx)%Z -> dtsub' it p = dtsub it p /\ forall it' p', dtsub it p = Ok (it', p') -> (0 <= it' <= mx + 1)%Z) ->
  (forall it p, (0 <= it <= (if bench then mx else mx + 1))%Z -> sub' it p = sub it p /\ forall it' p', sub it p = Ok (it', p') -> (0 <= it')%Z) ->
  forall wf it p, (0 <= it)%Z -> pp_while wf dtsub' sub' tol mx bench it p = pp_while wf dtsub sub tol mx bench it p.
Proof.
  intros H1 H2. induction wf as [|wf IH]; intros it p Hit; cbn [pp_while]; auto.
  destruct (nltb tol (ppn p)); cbn [andb]; auto. destruct (Z.leb_spec it mx) as [Hle|]; auto.
  assert (A : exists r, (if bench then Ok (it, p) else dtsub' it p) = r /\ (if bench then Ok (it, p) else dtsub it p) = r /\
                forall it' p', r = Ok (it', p') -> (0 <= it' <= (if bench then mx else mx + 1))%Z).
  { destruct bench; [eexists; split; [eauto|split; [eauto|]]; intros ? ? E; inversion E; subst; lia|].
    destruct (H1 eq_refl it p ltac:(lia)) as [-> E]. eexists; split; [eauto|split; [eauto|]]. exact E. }
  destruct A as (r & -> & -> & Hr). destruct r as [[it1 p1]|e]; cbn [bind]; auto.
  destruct (H2 it1 p1 ltac:(eapply Hr; eauto)) as [-> E]. destruct (sub it1 p1) as [[it2 p2]|e]; cbn [bind]; auto. apply IH. eapply E; eauto.
Qed.

Lemma DT_sub_or fuel V (tol ti limit lambda : N) mx rp it p :
  or_ub (alsCP_DT_sub_int LA clk rank0 fuel V tol ti limit lambda mx rp it p) (alsCP_DT_sub LA clk rank0 fuel V tol ti limit lambda mx rp it p).
Proof.
  unfold alsCP_DT_sub_int, alsCP_DT_sub. cbv zeta. do 4 orb. apply or_bind; [apply or_refl|intros [parent sibling] _]. apply or_bind; [apply for_int_or; auto; intros; apply or_refl|]. intros [[? ?] ?] _. apply or_refl.
Qed.
Lemma DT_sub_eq fuel V (tol ti limit lambda : N) mx rp it p : (mx < INT_MAX)%Z -> (0 <= it)%Z ->
  alsCP_DT_sub_int LA clk rank0 fuel V tol ti limit lambda mx rp it p = alsCP_DT_sub LA clk rank0 fuel V tol ti limit lambda mx rp it p /\
  forall it' p', alsCP_DT_sub LA clk rank0 fuel V tol ti limit lambda mx rp it p = Ok (it', p') -> (it <= it' <= Z.max it (mx + 1))%Z.
Proof.
  intros Hm Hi. unfold alsCP_DT_sub_int, alsCP_DT_sub. cbv zeta.
  split.
  - do 4 (apply eq_bind; [auto|intros]). apply eq_bind; auto. intros [parent sibling] _. apply eq_bind; [apply for_int_eq; auto; unfold INT_MIN; lia|auto].
  - intros it' p' E. do 4 (match type of E with bind ?a _ = _ => destruct a; cbn [bind] in E; [|discriminate] end).
    destruct (Construct_Dimension_Tree fuel (sempty, sempty) 0 (order V - 1)) as [[parent sibling]|]; cbn [bind] in E; [|discriminate].
    match type of E with bind ?a _ = _ => destruct a as [[[f j] s]|] eqn:F; cbn [bind] in E; [|discriminate] end. injection E as <- <-.
    eapply for_iter_range; eauto.
Qed.
Lemma PP_sub_or same V (tol ti limit lambda rs : N) mx rp bench it p :
  or_ub (alsCP_PP_sub_int LA clk rank0 same V tol ti limit lambda rs mx rp bench it p) (alsCP_PP_sub LA clk rank0 same V tol ti limit lambda rs mx rp bench it p).
Proof.
  unfold alsCP_PP_sub_int, alsCP_PP_sub. cbv zeta. do 3 orb. apply or_bind.
  - apply for_int_or; auto. intros j s. unfold int_sub. destruct (chk_int_cases (j - it)) as [->| ->]; cbn [bind]; [apply or_refl|right; auto].
  - intros [[f it'] s] _. destruct (bench_or bench f it') as [->| ->]; cbn [bind]; [apply or_refl|right; auto].
Qed.
Lemma PP_sub_eq same V (tol ti limit lambda rs : N) mx rp (bench : bool) it p : (mx < (if bench then INT_MAX - 1 else INT_MAX))%Z -> (0 <= it <= (if bench then mx else mx + 1))%Z ->
  alsCP_PP_sub_int LA clk rank0 same V tol ti limit lambda rs mx rp bench it p = alsCP_PP_sub LA clk rank0 same V tol ti limit lambda rs mx rp bench it p /\
  forall it' p', alsCP_PP_sub LA clk rank0 same V tol ti limit lambda rs mx rp bench it p = Ok (it', p') -> (0 <= it')%Z.
Proof.
  intros Hm Hi. unfold alsCP_PP_sub_int, alsCP_PP_sub. cbv zeta. assert (Hm1 : (mx < INT_MAX)%Z) by (destruct bench; lia).
  split.
  - do 3 (apply eq_bind; [auto|intros]). apply eq_bind.
    + apply for_int_eq; auto; [unfold INT_MIN; lia|]. intros j s Hj. rewrite int_sub_ok; [auto|]. unfold INT_MIN. lia.
    + intros [[f it'] s] F. apply for_iter_range with (mx := mx) in F; auto. rewrite bench_eq; [auto|]. destruct bench; [left|right; auto]. unfold INT_MIN. lia.
  - intros it' p' E. do 3 (match type of E with bind ?a _ = _ => destruct a; cbn [bind] in E; [|discriminate] end).
    match type of E with bind ?a _ = _ => destruct a as [[[f j] s]|] eqn:F; cbn [bind] in E; [|discriminate] end. injection E as <- <-.
    apply for_iter_range with (mx := mx) in F; auto. destruct f, bench; lia.
Qed.
Lemma PU_sub_or same V (tol ti limit lambda rs : N) us mx rp bench it p :
  or_ub (alsCP_PP_partupdate_sub_int LA clk rank0 same V tol ti limit lambda rs us mx rp bench it p) (alsCP_PP_partupdate_sub LA clk rank0 same V tol ti limit lambda rs us mx rp bench it p).
Proof.
  unfold alsCP_PP_partupdate_sub_int, alsCP_PP_partupdate_sub. cbv zeta. do 4 orb. apply or_bind.
  - apply for_int_or; auto. intros j s. unfold int_sub. destruct (chk_int_cases (j - it)) as [->| ->]; cbn [bind]; [apply or_refl|right; auto].
  - intros [[f it'] s] _. destruct (bench_or bench f it') as [->| ->]; cbn [bind]; [apply or_refl|right; auto].
Qed.
Lemma PU_sub_eq same V (tol ti limit lambda rs : N) us mx rp (bench : bool) it p : (mx < (if bench then INT_MAX - 1 else INT_MAX))%Z -> (0 <= it <= (if bench then mx else mx + 1))%Z ->
  alsCP_PP_partupdate_sub_int LA clk rank0 same V tol ti limit lambda rs us mx rp bench it p = alsCP_PP_partupdate_sub LA clk rank0 same V tol ti limit lambda rs us mx rp bench it p /\
  forall it' p', alsCP_PP_partupdate_sub LA clk rank0 same V tol ti limit lambda rs us mx rp bench it p = Ok (it', p') -> (0 <= it')%Z.
Proof.
  intros Hm Hi. unfold alsCP_PP_partupdate_sub_int, alsCP_PP_partupdate_sub. cbv zeta. assert (Hm1 : (mx < INT_MAX)%Z) by (destruct bench; lia).
  split.
  - do 4 (apply eq_bind; [auto|intros]). apply eq_bind.
    + apply for_int_eq; auto; [unfold INT_MIN; lia|]. intros j s Hj. rewrite int_sub_ok; [auto|]. unfold INT_MIN. lia.
    + intros [[f it'] s] F. apply for_iter_range with (mx := mx) in F; auto. rewrite bench_eq; [auto|]. destruct bench; [left|right; auto]. unfold INT_MIN. lia.
  - intros it' p' E. do 4 (match type of E with bind ?a _ = _ => destruct a; cbn [bind] in E; [|discriminate] end).
    match type of E with bind ?a _ = _ => destruct a as [[[f j] s]|] eqn:F; cbn [bind] in E; [|discriminate] end. injection E as <- <-.
    apply for_iter_range with (mx := mx) in F; auto. destruct f, bench; lia.
Qed.

(** end of every driver *)
Lemma end_or {A : Type} (a b : res (Z * A)) mx : or_ub a b ->
  or_ub ('(it, s) <- a ;; v <- verdict it mx ;; Ok (v, s)) ('(it, s) <- b ;; Ok (negb (Z.eqb it (mx + 1)), s)).
Proof. intros H. apply or_bind; auto. intros [it s] _. destruct (verdict_or it mx) as [->| ->]; cbn [bind]; [apply or_refl|right; auto]. Qed.
Lemma end_eq {A} (a b : res (Z * A)) mx : a = b -> (INT_MIN <= mx < INT_MAX)%Z ->
  ('(it, s) <- a ;; v <- verdict it mx ;; Ok (v, s)) = ('(it, s) <- b ;; Ok (negb (Z.eqb it (mx + 1)), s)).
Proof. intros -> H. apply eq_bind; auto. intros [it s] _. rewrite verdict_eq; auto. Qed.
Lemma end_bad {A} (a : res (Z * A)) r : ('(it, s) <- a ;; v <- verdict it INT_MAX ;; Ok (v, s)) <> Ok r.
Proof. destruct a as [[it s]|e]; cbn [bind]; [rewrite verdict_bad|]; discriminate. Qed.
End CP.

Section Tucker.
Context {N : num} (LA : lapack N) (clk : nat -> N) (rank0 : bool).
Lemma tk_while_or dtsub sub dtsub' sub' (tol : N) mx bench :
  (forall ti it p, or_ub (dtsub' ti it p) (dtsub ti it p)) -> (forall ti it p, or_ub (sub' ti it p) (sub ti it p)) ->
  forall wf ti it p, or_ub (tk_while wf dtsub' sub' tol mx bench ti it p) (tk_while wf dtsub sub tol mx bench ti it p).
Proof.
  intros H1 H2. induction wf as [|wf IH]; intros ti it p; cbn [tk_while]; destruct (_ && _)%bool; try apply or_refl.
  apply or_bind; [destruct bench; [apply or_refl|apply H1]|]. intros [it1 p1] _.
  apply or_bind; [apply H2|]. intros [it2 p2] _. apply IH.
Qed.
Lemma tk_while_eq dtsub sub dtsub' sub' (tol : N) mx (bench : bool) :
  (bench = false -> forall ti it p, (0 <= it <= mx)%Z -> dtsub' ti it p = dtsub ti it p /\ forall it' p', dtsub ti it p = Ok (it', p') -> (0 <= it' <= mx + 1)%Z) ->
  (forall ti it p, (0 <= it <= (if bench then mx else mx + 1))%Z -> sub' ti it p = sub ti it p /\ forall it' p', sub ti it p = Ok (it', p') -> (0 <= it')%Z) ->
  forall wf ti it p, (0 <= it)%Z -> tk_while wf dtsub' sub' tol mx bench ti it p = tk_while wf dtsub sub tol mx bench ti it p.
Proof.
  intros H1 H2. induction wf as [|wf IH]; intros ti it p Hit; cbn [tk_while]; auto.
  destruct (nltb tol (kdn p)); cbn [andb]; auto. destruct (Z.leb_spec it mx) as [Hle|]; auto.
  assert (A : exists r, (if bench then Ok (it, p) else dtsub' ti it p) = r /\ (if bench then Ok (it, p) else dtsub ti it p) = r /\
                forall it' p', r = Ok (it', p') -> (0 <= it' <= (if bench then mx else mx + 1))%Z).
  { destruct bench; [eexists; split; [eauto|split; [eauto|]]; intros ? ? E; inversion E; subst; lia|].
    destruct (H1 eq_refl ti it p ltac:(lia)) as [-> E]. eexists; split; [eauto|split; [eauto|]]. exact E. }
  destruct A as (r & -> & -> & Hr). destruct r as [[it1 p1]|e]; cbn [bind]; auto.
  destruct (H2 ti it1 p1 ltac:(eapply Hr; eauto)) as [-> E]. destruct (sub ti it1 p1) as [[it2 p2]|e]; cbn [bind]; auto. apply IH. eapply E; eauto.
Qed.
Lemma TDT_sub_or fuel V (tol ti limit : N) mx rp it k :
  or_ub (alsTucker_DT_sub_int LA clk rank0 fuel V tol ti limit mx rp it k) (alsTucker_DT_sub LA clk rank0 fuel V tol ti limit mx rp it k).
Proof.
  unfold alsTucker_DT_sub_int, alsTucker_DT_sub. cbv zeta. do 3 orb. apply or_bind; [apply or_refl|intros [parent sibling] _]. orb.
  apply or_bind; [apply for_int_or; auto; intros; apply or_refl|]. intros [[? ?] ?] _. apply or_refl.
Qed.
Lemma TDT_sub_eq fuel V (tol ti limit : N) mx rp it k : (mx < INT_MAX)%Z -> (0 <= it)%Z ->
  alsTucker_DT_sub_int LA clk rank0 fuel V tol ti limit mx rp it k = alsTucker_DT_sub LA clk rank0 fuel V tol ti limit mx rp it k /\
  forall it' p', alsTucker_DT_sub LA clk rank0 fuel V tol ti limit mx rp it k = Ok (it', p') -> (it <= it' <= Z.max it (mx + 1))%Z.
Proof.
  intros Hm Hi. unfold alsTucker_DT_sub_int, alsTucker_DT_sub. cbv zeta.
  split.
  - do 3 (apply eq_bind; [auto|intros]). apply eq_bind; auto. intros [parent sibling] _. apply eq_bind; [auto|intros]. apply eq_bind; [apply for_int_eq; auto; unfold INT_MIN; lia|auto].
  - intros it' p' E. do 2 (match type of E with bind ?a _ = _ => destruct a; cbn [bind] in E; [|discriminate] end).
    destruct (Construct_Dimension_Tree fuel (sempty, sempty) 0 (order V - 1)) as [[parent sibling]|]; cbn [bind] in E; [|discriminate].
    match type of E with bind ?a _ = _ => destruct a; cbn [bind] in E; [|discriminate] end.
    match type of E with bind ?a _ = _ => destruct a as [[[f j] s]|] eqn:F; cbn [bind] in E; [|discriminate] end. injection E as <- <-.
    eapply for_iter_range; eauto.
Qed.
Lemma TPP_sub_or V (tol ti limit : N) mx rp bench it k :
  or_ub (alsTucker_PP_sub_int LA clk rank0 V tol ti limit mx rp bench it k) (alsTucker_PP_sub LA clk rank0 V tol ti limit mx rp bench it k).
Proof.
  unfold alsTucker_PP_sub_int, alsTucker_PP_sub. cbv zeta. do 3 orb. apply or_bind.
  - apply for_int_or; auto. intros; apply or_refl.
  - intros [[f it'] s] _. destruct (bench_or bench f it') as [->| ->]; cbn [bind]; [apply or_refl|right; auto].
Qed.
Lemma TPP_sub_eq V (tol ti limit : N) mx rp (bench : bool) it k : (mx < (if bench then INT_MAX - 1 else INT_MAX))%Z -> (0 <= it <= (if bench then mx else mx + 1))%Z ->
  alsTucker_PP_sub_int LA clk rank0 V tol ti limit mx rp bench it k = alsTucker_PP_sub LA clk rank0 V tol ti limit mx rp bench it k /\
  forall it' p', alsTucker_PP_sub LA clk rank0 V tol ti limit mx rp bench it k = Ok (it', p') -> (0 <= it')%Z.
Proof.
  intros Hm Hi. unfold alsTucker_PP_sub_int, alsTucker_PP_sub. cbv zeta. assert (Hm1 : (mx < INT_MAX)%Z) by (destruct bench; lia).
  split.
  - do 3 (apply eq_bind; [auto|intros]). apply eq_bind.
    + apply for_int_eq; auto. unfold INT_MIN; lia.
    + intros [[f it'] s] F. apply for_iter_range with (mx := mx) in F; auto. rewrite bench_eq; [auto|]. destruct bench; [left|right; auto]. unfold INT_MIN. lia.
  - intros it' p' E. do 2 (match type of E with bind ?a _ = _ => destruct a; cbn [bind] in E; [|discriminate] end).
    match type of E with bind ?a _ = _ => destruct a as [[[f j] s]|] eqn:F; cbn [bind] in E; [|discriminate] end. injection E as <- <-.
    apply for_iter_range with (mx := mx) in F; auto. destruct f, bench; lia.
Qed.
End Tucker.

Section CPD.
Context {N : num} (clk : nat -> N) (rank0 : bool) {St : Type} (step : St -> res (Q * St)) (base : St -> opt_st N).
Lemma cpd_loop_or V sq (tol limit : N) ms rp bench : forall fuel iters sweeps c,
  or_ub (cpd_loop_int clk rank0 step base fuel V sq tol limit ms rp bench iters sweeps c) (cpd_loop clk rank0 step base fuel V sq tol limit ms rp bench iters sweeps c).
Proof.
  induction fuel as [|fuel IH]; intros iters sweeps c; cbn [cpd_loop_int cpd_loop]; destruct (chk_int_cases (Qfloor sweeps)) as [->| ->]; cbn [bind];
    try (right; reflexivity); destruct (Z.leb _ _); try apply or_refl.
  orb. apply or_bind; [apply or_refl|]. intros [stop c1] _. destruct stop; [apply or_refl|]. apply or_bind; [apply or_refl|]. intros [q st] _.
  unfold int_add. destruct (chk_int_cases (iters + 1)) as [->| ->]; cbn [bind]; [apply IH|right; auto].
Qed.
Lemma floor_range (q : Q) z : (0 <= q)%Q -> (q <= inject_Z z)%Q -> (0 <= Qfloor q <= z)%Z.
Proof.
  intros H0 H1. split; [change 0%Z with (Qfloor 0); apply Qfloor_resp_le; auto|]. rewrite <- (Qfloor_Z z). apply Qfloor_resp_le; auto.
Qed.
Lemma floor_lt (q : Q) z : (Qfloor q <= z)%Z -> (q <= inject_Z (z + 1))%Q.
Proof.
  intros H. apply Qlt_le_weak. eapply Qlt_le_trans; [apply Qlt_floor|]. rewrite <- Zle_Qle. lia.
Qed.
Lemma cpd_loop_eq V sq (tol limit : N) ms rp bench :
  (forall s q s', step s = Ok (q, s') -> (0 <= q <= 1)%Q) -> (ms + 2 <= INT_MAX)%Z ->
  forall fuel iters sweeps c, (0 <= iters)%Z -> (iters + Z.of_nat fuel <= INT_MAX)%Z -> (0 <= sweeps)%Q -> (sweeps <= inject_Z (Z.max 0 (ms + 2)))%Q ->
  cpd_loop_int clk rank0 step base fuel V sq tol limit ms rp bench iters sweeps c = cpd_loop clk rank0 step base fuel V sq tol limit ms rp bench iters sweeps c.
Proof.
  intros Hstep Hms. induction fuel as [|fuel IH]; intros iters sweeps c Hi Hf H0 H1; cbn [cpd_loop_int cpd_loop];
    assert (A := floor_range _ _ H0 H1); rewrite chk_int_ok by (unfold INT_MIN, INT_MAX in *; lia); cbn [bind]; auto.
  destruct (Z.leb_spec (Qfloor sweeps) ms) as [Hle|]; auto.
  apply eq_bind; auto. intros m _. apply eq_bind; auto. intros [stop c1] _. destruct stop; auto. apply eq_bind; auto. intros [q st] Es.
  destruct (Hstep _ _ _ Es) as [Q0 Q1].
  rewrite int_add_ok by (unfold INT_MIN, INT_MAX in *; lia). cbn [bind].
  assert (R0 : (0 # 8192 <= rnd64 q)%Q) by (apply rnd64_ge; setoid_replace (0 # 8192)%Q with 0%Q by reflexivity; exact Q0).
  assert (R1 : (rnd64 q <= 8192 # 8192)%Q) by (apply rnd64_le; setoid_replace (8192 # 8192)%Q with 1%Q by reflexivity; exact Q1).
  assert (L := floor_lt _ _ Hle).
  apply IH; [lia|lia| |].
  - change 0%Q with (0 # 1)%Q. apply Qle_trans with (0 # 8192)%Q; [discriminate|]. apply rnd64_ge. apply Qle_trans with (sweeps + (0 # 8192))%Q.
    + setoid_replace (0 # 8192)%Q with 0%Q by reflexivity. rewrite Qplus_0_r. exact H0.
    + apply Qplus_le_r. exact R0.
  - apply Qle_trans with ((ms + 2) * 8192 # 8192)%Q.
    + apply rnd64_le. apply Qle_trans with (inject_Z (ms + 1) + 1)%Q.
      * apply Qplus_le_compat; [exact L|setoid_replace (8192 # 8192)%Q with 1%Q in R1 by reflexivity; exact R1].
      * unfold Qle, inject_Z, Qplus. cbn [Qnum Qden]. lia.
    + unfold Qle, inject_Z. cbn [Qnum Qden]. lia.
Qed.
Lemma cpd_als_or fuel V (tol limit : N) ms rp bench s gn x :
  or_ub (cpd_als_int clk rank0 step base fuel V tol limit ms rp bench s gn x) (cpd_als clk rank0 step base fuel V tol limit ms rp bench s gn x).
Proof.
  unfold cpd_als_int, cpd_als. orb. destruct (wtime clk x) as [t x1]. cbv zeta. apply or_bind; [apply cpd_loop_or|]. intros [[i sw] c] _.
  unfold int_add. destruct (chk_int_cases (ms + 1)) as [->| ->]; cbn [bind]; [apply or_refl|right; auto].
Qed.
Lemma cpd_als_eq fuel V (tol limit : N) ms rp bench s gn x :
  (forall s q s', step s = Ok (q, s') -> (0 <= q <= 1)%Q) -> (0 <= ms)%Z -> (ms + 2 <= INT_MAX)%Z -> (Z.of_nat fuel <= INT_MAX)%Z ->
  cpd_als_int clk rank0 step base fuel V tol limit ms rp bench s gn x = cpd_als clk rank0 step base fuel V tol limit ms rp bench s gn x.
Proof.
  intros Hs H0 Hm Hf. unfold cpd_als_int, cpd_als. apply eq_bind; auto. intros sq _. destruct (wtime clk x) as [t x1]. cbv zeta.
  rewrite cpd_loop_eq; [|auto|auto|lia|lia|apply Qle_refl|unfold Qle, inject_Z; cbn [Qnum Qden]; lia].
  apply eq_bind; auto. intros [[i sw] c] _. rewrite int_add_ok by (unfold INT_MIN; lia). auto.
Qed.
Lemma cpd_als_bad fuel V (tol limit : N) rp bench s gn x r : cpd_als_int clk rank0 step base fuel V tol limit INT_MAX rp bench s gn x <> Ok r.
Proof.
  unfold cpd_als_int. destruct (cpd_seqV (order V)); cbn [bind]; [|discriminate]. destruct (wtime clk x) as [t x1]. cbv zeta.
  match goal with |- bind ?a _ <> _ => destruct a as [[[i sw] c]|] end; cbn [bind]; [|discriminate]. change (int_add INT_MAX 1) with (@Err Z UB). discriminate.
Qed.
End CPD.
