(** Property theorems: dimension tree, ALS sweeps and their drivers (C05, C06, C07, C08, C18, C26) *)
From Coq Require Import List ZArith QArith Lia Bool Arith Permutation Reals Lra.
From Verif Require Import Base Num NumR Tensor Spec MCommon MCP PBase PTensor PMat PMatAlg PGrad PTree PDT PDTSweep PALS
  PTreeProps PMono PDrivers.
Import ListNotations.
Local Close Scope Q_scope.
Local Close Scope R_scope.

(** ** a concrete order-4 problem over the integers: V is the 2x2x2x2 superdiagonal tensor, three factors
    are the identity, factor 0 is not; the decomposition oracle returns (I, diagonal, I), a valid SVD
    for the identity matrices that occur *)
Definition alsV : tensor Znum := @tabulate Znum [2; 2; 2; 2] (fun x =>
  if forallb (Nat.eqb (nth 0 x 0)) x then 1%Z else 0%Z).
Definition alsW : list (tensor Znum) := [zt [2; 2] [1; 3; 2; 1]%Z; mid 2; mid 2; mid 2].
Definition alsF : list (tensor Znum) := repeat (zeros [2; 2]) 4.
Definition LAz : lapack Znum :=
  @mkLapack Znum (fun S k => (mid k, tabulate [k] (fun x => at_ S [nth 0 x 0; nth 0 x 0]), mid k)) (fun A => A) (fun B L _ _ _ => B)
           (fun A => A) (fun _ ls => zeros ls).
Lemma LAz_shaped : svd_shaped (svd LAz).
Proof. intros S k HS. cbn. split; [apply mdiag_mat|]. split; [reflexivity|]. split; [apply tabulate_wf|apply mdiag_mat]. Qed.
Lemma als_case_ok : factors_ok alsV alsW 2 /\ mats_ok alsV alsF 2 /\ zero_mats alsV alsF 2 /\ order alsV = 4.
Proof.
  split; [|split; [|split; [|reflexivity]]].
  - split; [reflexivity|]. split; [reflexivity|]. intros m Hm; cbn in Hm; do 4 (destruct m as [|m]; [split; reflexivity|]); lia.
  - split; [reflexivity|]. intros m Hm; cbn in Hm; do 4 (destruct m as [|m]; [split; reflexivity|]); lia.
  - intros m i j Hm Hi Hj. cbn in Hm.
    do 4 (destruct m as [|m]; [cbn in Hi; destruct i as [|[|i]]; destruct j as [|[|j]]; try reflexivity; lia|]); lia.
Qed.

(** ** C05 *)
Theorem C05_dimension_tree_mttkrp_exact :
  forall (N : num), ring_laws N ->
  forall (V : tensor N) (W : list (tensor N)) (R i fuel : nat) (parent sibling : smap str),
  order V = 4 \/ 6 <= order V <= 31 -> order V < fuel -> factors_ok V W R -> i < order V ->
  Construct_Dimension_Tree fuel (sempty, sempty) 0 (order V - 1) = Ok (parent, sibling) ->
  exists table, dt_M fuel parent sibling V W sempty i = Ok (table, mttkrp V W i R).
Proof.
  intros N RL V W R i fuel parent sibling Ho Hf HW Hi E.
  destruct (tree_build (order V) fuel) as (p & s & E' & Ht); [lia|lia|]. rewrite E in E'. injection E' as <- <-.
  destruct (dt_M_ok RL V R ltac:(lia) parent sibling Ht ltac:(lia) W i fuel sempty HW Hi Hf) as (mp & Em & _).
  - intros x y T _ _ H. discriminate.
  - eauto.
Qed.
Print Assumptions C05_dimension_tree_mttkrp_exact.
(** and the same table answers the other modes correctly as long as the factors do not change *)
Theorem C05_cached_requests_exact :
  forall (N : num), ring_laws N ->
  forall (V : tensor N) (W : list (tensor N)) (R i : nat) (fuel : nat) (parent sibling : smap str) (modes : list nat),
  order V = 4 \/ 6 <= order V <= 31 -> order V < fuel -> factors_ok V W R ->
  (forall m, In m modes -> m < order V) ->
  Construct_Dimension_Tree fuel (sempty, sempty) 0 (order V - 1) = Ok (parent, sibling) ->
  exists table,
    fold_left (fun acc m => '(mp, out) <- acc ;; '(mp, M) <- dt_M fuel parent sibling V W mp m ;; Ok (mp, out ++ [M]))
              modes (Ok (sempty, []))
    = Ok (table, map (fun m => mttkrp V W m R) modes).
Proof.
  intros N RL V W R i fuel parent sibling modes Ho Hf HW Hm E.
  destruct (tree_build (order V) fuel) as (p & s & E' & Ht); [lia|lia|]. rewrite E in E'. injection E' as <- <-.
  assert (G : forall modes mp out, (forall m, In m modes -> m < order V) -> 
     (forall m, m < order V -> valid_at V R W m mp) ->
     exists table,
    fold_left (fun acc m => '(mp, out) <- acc ;; '(mp, M) <- dt_M fuel parent sibling V W mp m ;; Ok (mp, out ++ [M]))
              modes (Ok (mp, out))
    = Ok (table, out ++ map (fun m => mttkrp V W m R) modes)).
  { clear modes Hm. induction modes as [|m modes IH]; intros mp out Hm Hv.
    - exists mp. cbn. rewrite app_nil_r. reflexivity.
    - destruct (dt_M_ok RL V R ltac:(lia) parent sibling Ht ltac:(lia) W m fuel mp HW) as (mp' & Em & Hv' & Hnew); auto.
      { apply Hm; left; auto. } { apply Hv, Hm; left; auto. }
      cbn [fold_left bind]. rewrite Em. cbn [bind].
      destruct (IH mp' (out ++ [mttkrp V W m R])) as (t & Et).
      + intros; apply Hm; right; auto.
      + intros k Hk x y T Hx Hy ET. destruct (Hnew _ _ ET) as [ET'|(x' & y' & Hx' & Hy' & Es)].
        * exact (Hv k Hk x y T Hx Hy ET').
        * assert (x = x' /\ y = y') as [-> ->] by (apply range_str_inj; auto; lia).
          exact (Hv' x' y' T Hx' Hy' ET).
      + exists t. rewrite Et. cbn [map]. rewrite <- app_assoc. reflexivity. }
  destruct (G modes sempty []) as (t & Et); auto.
  - intros m Hm' x y T _ _ H. discriminate.
  - exists t. exact Et.
Qed.
Print Assumptions C05_cached_requests_exact.
Theorem C05_case : match Construct_Dimension_Tree 5 (sempty, sempty) 0 3 with
  | Ok (p, s) => match dt_M 5 p s alsV alsW sempty 3 with
                 | Ok (_, M) => data M = data (mttkrp alsV alsW 3 2) /\ nth 0 (data M) 0%Z <> 0%Z | _ => False end
  | _ => False end.
Proof. vm_compute. split; [reflexivity|discriminate]. Qed.

(** ** C06 *)
Theorem C06_order5_undefined :
  forall (N : num) (LA : lapack N) (V : tensor N) (F W G : list (tensor N)) (regul Sm : tensor N) (fuel : nat)
    (parent sibling : smap str) (seqV : buf Z),
  order V = 5 -> length W = 5 -> 5 <= fuel -> mk_seqV 5 = Ok seqV ->
  Construct_Dimension_Tree fuel (sempty, sempty) 0 4 = Ok (parent, sibling) ->
  alsCP_DT_sweep LA fuel parent sibling V F regul W G Sm seqV = Err UB.
Proof.
  intros N LA V F W G regul Sm fuel parent sibling seqV Ho HL Hf Es E.
  destruct (tree_build 5 fuel) as (p & s & E' & Ht); [lia|lia|]. change (5 - 1) with 4 in E'. rewrite E in E'. injection E' as <- <-.
  rewrite mk_seqV_ok in Es. injection Es as <-. rewrite <- Ho.
  apply bad_sweep; [lia|lia|]. intros mp Hmp. destruct fuel; [lia|]. apply bad5; auto. lia.
Qed.
Print Assumptions C06_order5_undefined.
Theorem C06_order12_undefined :
  forall (N : num) (LA : lapack N) (V : tensor N) (F W G : list (tensor N)) (regul Sm : tensor N) (fuel : nat)
    (parent sibling : smap str) (seqV : buf Z),
  order V = 1 \/ order V = 2 -> length W = order V -> 2 <= fuel -> mk_seqV (order V) = Ok seqV ->
  Construct_Dimension_Tree fuel (sempty, sempty) 0 (order V - 1) = Ok (parent, sibling) ->
  alsCP_DT_sweep LA fuel parent sibling V F regul W G Sm seqV = Err UB.
Proof.
  intros N LA V F W G regul Sm fuel parent sibling seqV Ho HL Hf Es E.
  destruct (tree_build (order V) fuel) as (p & s & E' & Ht); [lia|lia|]. rewrite E in E'. injection E' as <- <-.
  rewrite mk_seqV_ok in Es. injection Es as <-.
  apply bad_sweep; [lia|lia|]. intros mp Hmp. destruct fuel; [lia|]. apply (bad12 fuel parent sibling V W mp (order V)); auto. lia.
Qed.
Print Assumptions C06_order12_undefined.
(** order 3: mode 2 recurses for ever (every amount of fuel runs out), so no sweep ever finishes *)
Theorem C06_order3_diverges :
  forall (N : num) (LA : lapack N) (V : tensor N) (F W G : list (tensor N)) (regul Sm : tensor N) (fuel : nat)
    (parent sibling : smap str) (seqV : buf Z),
  order V = 3 -> length W = 3 -> 3 <= fuel ->
  Construct_Dimension_Tree fuel (sempty, sempty) 0 2 = Ok (parent, sibling) ->
  (forall fuel', dt_M fuel' parent sibling V W sempty 2 = Err OutOfFuel) /\
  (forall fuel' r, alsCP_DT_sweep LA fuel' parent sibling V F regul W G Sm seqV <> Ok r).
Proof.
  intros N LA V F W G regul Sm fuel parent sibling seqV Ho HL Hf E.
  destruct (tree_build 3 fuel) as (p & s & E' & Ht); [lia|lia|]. change (3 - 1) with 2 in E'. rewrite E in E'. injection E' as <- <-.
  split.
  - intros. apply bad3; auto. lia.
  - intros. apply bad3_sweep; auto. lia.
Qed.
Print Assumptions C06_order3_diverges.
Theorem C06_case : exists V : tensor Znum, exists W, order V = 5 /\ factors_ok V W 1.
Proof.
  exists (zeros [1; 1; 1; 1; 1]), (repeat (zeros [1; 1]) 5). split; [reflexivity|]. split; [reflexivity|]. split; [reflexivity|].
  intros m Hm; cbn in Hm; do 5 (destruct m as [|m]; [split; reflexivity|]); lia.
Qed.

(** ** C07 *)
Theorem C07_dimension_tree_well_formed :
  forall (o fuel : nat), 2 <= o <= 31 -> o <= fuel ->
  exists parent sibling,
  Construct_Dimension_Tree fuel (sempty, sempty) 0 (o - 1) = Ok (parent, sibling) /\
  let full := map chr (seq 0 o) in
  NoDup full /\
  (forall i, i < o -> exists k, k <= o /\ ancestor parent k [chr i] = Some full) /\
  parent full = None /\
  (forall s p, parent s = Some p ->
     (p = full \/ exists q, parent p = Some q) /\
     exists t, sibling s = Some t /\ parent t = Some p /\ sibling t = Some s /\
       s <> [] /\ t <> [] /\ (p = s ++ t \/ p = t ++ s) /\
       exists u v, full = u ++ p ++ v).
Proof. exact tree_props. Qed.
Print Assumptions C07_dimension_tree_well_formed.
Theorem C07_case : match Construct_Dimension_Tree 6 (sempty, sempty) 0 5 with
  | Ok (p, s) => p [chr 4] = Some [chr 3; chr 4] /\ s [chr 3; chr 4] = Some [chr 5] /\ ancestor p 3 [chr 4] = Some (map chr (seq 0 6))
  | _ => False end.
Proof. vm_compute. auto. Qed.

(** ** C08: the factors and the gradients a sweep leaves *)
Theorem C08_dimension_tree_sweep :
  forall (N : num), ring_laws N ->
  forall (LA : lapack N), svd_shaped (svd LA) ->
  forall (V : tensor N) (R : nat) (F W G : list (tensor N)) (Sm : tensor N) (lambda : N) (fuel : nat)
    (parent sibling : smap str) (seqV : buf Z) (regul : tensor N),
  order V = 4 \/ 6 <= order V <= 31 -> order V < fuel ->
  factors_ok V W R -> mats_ok V F R -> mats_ok V G R -> lens Sm = [R; R] ->
  mk_seqV (order V) = Ok seqV -> mk_regul R lambda = Ok regul ->
  Construct_Dimension_Tree fuel (sempty, sempty) 0 (order V - 1) = Ok (parent, sibling) ->
  let solve := pinv_solve (svd LA) R in
  exists Sm',
    alsCP_DT_sweep LA fuel parent sibling V F regul W G Sm seqV
    = Ok (rescaled (als_sweep solve lambda V F R W), als_grads solve lambda V F R W, Sm', seqV)
    /\ lens Sm' = [R; R].
Proof.
  intros N RL LA Hsh V R F W G Sm lambda fuel parent sibling seqV regul Ho Hf HW HF HG HS Es Er E solve.
  destruct (tree_build (order V) fuel) as (p & s & E' & Ht); [lia|lia|]. rewrite E in E'. injection E' as <- <-.
  rewrite mk_seqV_ok in Es. injection Es as <-. rewrite (mk_regul_ok RL) in Er. injection Er as <-.
  exact (alsCP_DT_sweep_ok RL LA V R Hsh parent sibling fuel Ht ltac:(lia) ltac:(lia) Hf F G W Sm lambda HW HF HG HS).
Qed.
Print Assumptions C08_dimension_tree_sweep.
(** the same for the exact phase of pairwise perturbation, which has no F *)
Theorem C08_exact_phase_sweep :
  forall (N : num), ring_laws N ->
  forall (LA : lapack N), svd_shaped (svd LA) ->
  forall (V : tensor N) (R : nat) (F W G : list (tensor N)) (Sm : tensor N) (lambda : N) (fuel : nat)
    (parent sibling : smap str) (seqV : buf Z) (regul : tensor N),
  order V = 4 \/ 6 <= order V <= 31 -> order V < fuel ->
  (neqb lambda n0 = true -> lambda = n0) ->
  factors_ok V W R -> zero_mats V F R -> mats_ok V G R -> lens Sm = [R; R] ->
  mk_seqV (order V) = Ok seqV -> mk_regul R lambda = Ok regul ->
  Construct_Dimension_Tree fuel (sempty, sempty) 0 (order V - 1) = Ok (parent, sibling) ->
  let solve := pinv_solve (svd LA) R in
  exists Sm',
    DT_sub_sweep LA fuel parent sibling V lambda regul W G Sm seqV
    = Ok (rescaled (als_sweep solve lambda V F R W), als_grads solve lambda V F R W, Sm', seqV)
    /\ lens Sm' = [R; R].
Proof.
  intros N RL LA Hsh V R F W G Sm lambda fuel parent sibling seqV regul Ho Hf Hl HW HF HG HS Es Er E solve.
  destruct (tree_build (order V) fuel) as (p & s & E' & Ht); [lia|lia|]. rewrite E in E'. injection E' as <- <-.
  rewrite mk_seqV_ok in Es. injection Es as <-. rewrite (mk_regul_ok RL) in Er. injection Er as <-.
  exact (DT_sub_sweep_ok RL LA V R Hsh parent sibling fuel Ht ltac:(lia) ltac:(lia) Hf F G W Sm lambda Hl HW HF HG HS).
Qed.
Print Assumptions C08_exact_phase_sweep.
(** and for the sweep of alsCP (direct MTTKRP, equal mode lengths) *)
Theorem C08_direct_sweep :
  forall (N : num), ring_laws N ->
  forall (LA : lapack N), svd_shaped (svd LA) ->
  forall (V : tensor N) (R s : nat) (F W : list (tensor N)) (Sm : tensor N) (seqV : buf Z),
  2 <= order V <= 10 -> lens V = repeat s (order V) ->
  factors_ok V W R -> mats_ok V F R -> lens Sm = [R; R] -> mk_seqV (order V) = Ok seqV ->
  exists Sm',
    alsCP_sweep LA V F (W, Sm, seqV) = Ok (als_sweep (pinv_solve (svd LA) R) n0 V F R W, Sm', seqV)
    /\ lens Sm' = [R; R].
Proof.
  intros N RL LA Hsh V R s F W Sm seqV Ho Hc HW HF HS Es.
  rewrite mk_seqV_ok in Es. injection Es as <-.
  exact (alsCP_sweep_ok RL LA V R Hsh F W Sm s Ho Hc HW HF HS).
Qed.
Print Assumptions C08_direct_sweep.
Theorem C08_case :
  match Construct_Dimension_Tree 5 (sempty, sempty) 0 3, mk_seqV 4 with
  | Ok (p, s), Ok sq => match alsCP_DT_sweep LAz 5 p s alsV alsF (zeros [2;2]) alsW alsW (zeros [2;2]) sq with
                 | Ok (W', G', _, _) => data (fac W' 0) = [1; 0; 0; 1]%Z /\ data (fac alsW 0) <> data (fac W' 0) /\
                                        nth 1 (data (fac G' 0)) 0%Z <> 0%Z
                 | _ => False end
  | _, _ => False end.
Proof. vm_compute. split; [reflexivity|split; discriminate]. Qed.

(** ** C18 *)
Theorem C18_sweep_never_increases_residual :
  forall (N : num), ring_laws N -> ord_laws N ->
  forall (LA : lapack N), svd_shaped (svd LA) ->
  forall (V : tensor N) (F W : list (tensor N)) (R : nat),
  factors_ok V W R -> zero_mats V F R ->
  let solve := pinv_solve (svd LA) R in
  (forall n, n < order V -> svd_solvable (svd LA) (hgram (als_upto solve n0 V F R n W) n R) R) ->
  nle (residual2 V (als_sweep solve n0 V F R W) R) (residual2 V W R).
Proof. intros N RL OL LA Hsh V F W R HW HF solve Hg. exact (sweep_monotone RL OL LA Hsh V F W R HW HF Hg). Qed.
Print Assumptions C18_sweep_never_increases_residual.
(** the code's dimension-tree sweep, normalisation included, over the reals *)
Theorem C18_dimension_tree_sweep_monotone :
  forall (LA : lapack Rnum), svd_shaped (svd LA) ->
  forall (V : tensor Rnum) (R : nat) (F W G : list (tensor Rnum)) (Sm : tensor Rnum) (fuel : nat)
    (parent sibling : smap str) (seqV : buf Z) (regul : tensor Rnum),
  order V = 4 \/ 6 <= order V <= 31 -> order V < fuel ->
  factors_ok V W R -> mats_ok V F R -> zero_mats V F R -> mats_ok V G R -> lens Sm = [R; R] ->
  mk_seqV (order V) = Ok seqV -> mk_regul R (0%R : Rnum) = Ok regul ->
  Construct_Dimension_Tree fuel (sempty, sempty) 0 (order V - 1) = Ok (parent, sibling) ->
  let solve := pinv_solve (svd LA) R in
  (forall n, n < order V -> svd_solvable (svd LA) (hgram (als_upto solve n0 V F R n W) n R) R) ->
  (forall m, m < order V -> norm2 (fac (als_sweep solve n0 V F R W) m) <> 0%R) ->
  exists W' G' Sm' seqV',
    alsCP_DT_sweep LA fuel parent sibling V F regul W G Sm seqV = Ok (W', G', Sm', seqV') /\
    (residual2 V W' R <= residual2 V W R)%R.
Proof.
  intros LA Hsh V R F W G Sm fuel parent sibling seqV regul Ho Hf HW HF HF0 HG HS Es Er E solve Hg Hn.
  destruct (C08_dimension_tree_sweep Rnum Rnum_ring LA Hsh V R F W G Sm 0%R fuel parent sibling seqV regul) as (Sm' & E1 & _); auto.
  eexists _, _, _, _. split; [exact E1|].
  change (pinv_solve (svd LA) R) with solve.
  rewrite (rescaled_residual V (als_sweep solve 0%R V F R W) R).
  - apply Rnle. exact (C18_sweep_never_increases_residual Rnum Rnum_ring Rnum_ord LA Hsh V F W R HW HF0 Hg).
  - apply (sweep_factors Rnum_ring LA V R Hsh); auto.
  - lia.
  - exact Hn.
Qed.
Print Assumptions C18_dimension_tree_sweep_monotone.
Lemma LAz_solvable : svd_solvable (svd LAz) (mid 2) 2.
Proof.
  unfold svd_solvable. cbn [svd LAz]. split.
  - split; [apply mdiag_mat|]. split; [reflexivity|]. split; [reflexivity|]. split; [apply mdiag_mat|].
    repeat split; vm_compute; reflexivity.
  - intros i Hi. destruct i as [|[|i]]; [reflexivity|reflexivity|lia].
Qed.
Theorem C18_sweep_case :
  (forall n, n < order alsV -> svd_solvable (svd LAz) (hgram (als_upto (pinv_solve (svd LAz) 2) (0%Z : Znum) alsV alsF 2 n alsW) n 2) 2) /\
  nltb (residual2 alsV (als_sweep (pinv_solve (svd LAz) 2) (0%Z : Znum) alsV alsF 2 alsW) 2) (residual2 alsV alsW 2) = true.
Proof.
  split; [|vm_compute; reflexivity].
  intros n Hn.
  assert (E : hgram (als_upto (pinv_solve (svd LAz) 2) (0%Z : Znum) alsV alsF 2 n alsW) n 2 = mid 2).
  { cbn in Hn. do 4 (destruct n as [|n]; [vm_compute; reflexivity|]); lia. }
  rewrite E. exact LAz_solvable.
Qed.

(** the hypotheses of C18_dimension_tree_sweep_monotone over the reals: a 1x1x1x1 tensor of rank 1 *)
Definition rt (ls : list nat) (l : list R) : tensor Rnum := @mkT Rnum ls l.
Definition LAr : lapack Rnum :=
  @mkLapack Rnum (fun S k => (mid k, tabulate [k] (fun x => at_ S [nth 0 x 0; nth 0 x 0]), mid k)) (fun A => A) (fun B L _ _ _ => B)
           (fun A => A) (fun _ ls => zeros ls).
Definition one1 := rt [1; 1] [1%R].
Definition rV := rt [1; 1; 1; 1] [1%R].
Definition rF := repeat (rt [1; 1] [0%R]) 4.
Definition rW := [rt [1; 1] [2%R]; one1; one1; one1].
Lemma r_step n W : n < 4 -> W = rW \/ W = repeat one1 4 -> (n <> 0 -> W = repeat one1 4) ->
  hgram W n 1 = one1 /\ als_update (pinv_solve (svd LAr) 1) (0%R : Rnum) rV rF 1 W n = repeat one1 4.
Proof.
  intros Hn HW Hn0.
  assert (HW' : (n = 0 /\ W = rW) \/ W = repeat one1 4).
  { destruct (Nat.eq_dec n 0); [destruct HW; auto|right; auto]. }
  clear HW Hn0. destruct HW' as [[-> ->]| ->]; [|destruct n as [|[|[|[|n]]]]]; try (exfalso; lia);
  (split; [unfold one1, rt|unfold als_update, setf, one1, rt]);
  cbv -[Rplus Rmult Rminus Ropp Rdiv IZR];
  repeat match goal with |- context [@mkT _ _ (@cons _ ?x nil)] =>
    lazymatch x with IZR 1 => fail | _ => replace x with 1%R by (unfold Rdiv; rewrite ?Rmult_1_l, ?Rplus_0_r, ?Rmult_1_l, ?Rplus_0_r, ?Rmult_1_r, ?Rmult_0_r, ?Rplus_0_r; try lra; field) end end; reflexivity.
Qed.

Theorem C18_real_case :
  svd_shaped (svd LAr) /\ factors_ok rV rW 1 /\ mats_ok rV rF 1 /\ zero_mats rV rF 1 /\
  let solve := pinv_solve (svd LAr) 1 in
  (forall n, n < 4 -> svd_solvable (svd LAr) (hgram (als_upto solve (0%R : Rnum) rV rF 1 n rW) n 1) 1) /\
  (forall m, m < 4 -> norm2 (fac (als_sweep solve (0%R : Rnum) rV rF 1 rW) m) <> 0%R).
Proof.
  split. { intros S k HS. cbn. split; [apply mdiag_mat|]. split; [reflexivity|]. split; [apply tabulate_wf|apply mdiag_mat]. }
  split. { split; [reflexivity|]. split; [reflexivity|]. intros m Hm; cbn in Hm; do 4 (destruct m as [|m]; [split; reflexivity|]); lia. }
  split. { split; [reflexivity|]. intros m Hm; cbn in Hm; do 4 (destruct m as [|m]; [split; reflexivity|]); lia. }
  split. { intros m i j Hm Hi Hj. cbn in Hm. do 4 (destruct m as [|m]; [cbn in Hi; destruct i, j; try reflexivity; lia|]); lia. }
  cbv zeta.
  assert (U : forall n, n < 4 -> als_upto (pinv_solve (svd LAr) 1) (0%R : Rnum) rV rF 1 (S n) rW = repeat one1 4).
  { induction n; intros Hn; rewrite upto_S.
    - apply r_step; auto. intros []; auto.
    - rewrite IHn by lia. apply r_step; auto. }
  split.
  - intros n Hn.
    assert (E : hgram (als_upto (pinv_solve (svd LAr) 1) (0%R : Rnum) rV rF 1 n rW) n 1 = mid 1).
    { replace (mid 1) with one1 by reflexivity. destruct n as [|n].
      - apply (r_step 0 rW); auto. intros []; auto.
      - rewrite U by lia. apply r_step; auto. }
    rewrite E. unfold svd_solvable. cbn [svd LAr]. split.
    + split; [apply mdiag_mat|]. split; [reflexivity|]. split; [reflexivity|]. split; [apply mdiag_mat|].
      assert (M1 : mmul (mid 1) (mid 1) = (mid 1 : tensor Rnum)) by (apply (mmul_id_r Rnum_ring _ 1 1), mdiag_mat).
      assert (T1 : mtrans (mid 1) = (mid 1 : tensor Rnum)) by reflexivity.
      rewrite T1. split; [|auto].
      replace (mdiag 1 _) with (mid 1 : tensor Rnum) by reflexivity. rewrite M1. auto.
    + intros i Hi. destruct i; [|lia]. cbn. field.
  - intros m Hm. unfold als_sweep. change (order rV) with 4. rewrite U by lia.
    replace (fac (repeat one1 4) m) with one1 by (do 4 (destruct m as [|m]; [reflexivity|]); lia).
    unfold norm2. cbn. rewrite Rmult_1_l, Rplus_0_r. rewrite sqrt_1. lra.
Qed.

(** ** C26 *)
Theorem C26_alsCP_DT :
  forall (N : num), ring_laws N ->
  forall (LA : lapack N), svd_shaped (svd LA) ->
  forall (clock : nat -> N) (rank0 : bool)
    (V : tensor N) (R : nat) (W G F : list (tensor N)) (tol limit : N) (maxiter : Z) (lambda : N) (resprint : Z)
    (bench : bool) (fuel : nat) (x : io),
  order V = 4 \/ 6 <= order V <= 19 -> order V < fuel ->
  factors_ok V W R -> mats_ok V F R -> mats_ok V G R -> (0 <= maxiter)%Z -> resprint <> 0%Z ->
  let step := fun W => rescaled (als_sweep (pinv_solve (svd LA) R) lambda V F R W) in
  exists ret st k,
    alsCP_DT LA clock rank0 fuel V W G F tol limit maxiter lambda resprint bench x = Ok (ret, st) /\
    (Z.of_nat k <= maxiter + 1)%Z /\ dtW st = Nat.iter k step W /\
    dtG st = match k with O => G | S k' => als_grads (pinv_solve (svd LA) R) lambda V F R (Nat.iter k' step W) end /\
    (ret = true -> (Z.of_nat k <= maxiter)%Z /\ dtpn st = grad_norm (dtG st) /\
        (nltb (dtpn st) tol = true \/ nltb limit (nsub (clock (ck (dtio st) - 1)) (st_time (dtio st))) = true)) /\
    (ret = false -> Z.of_nat k = (maxiter + 1)%Z).
Proof.
  intros N RL LA Hsh clock rank0 V R W G F tol limit maxiter lambda resprint bench fuel x Ho Hf HW HF HG Hm Hr step.
  destruct (alsCP_DT_run RL LA clock rank0 V R W G F tol limit maxiter lambda resprint bench fuel x Ho Hf Hsh HW HF HG Hm Hr)
    as (ret & st & k & E1 & E2 & E3 & E4 & E5 & E6).
  exists ret, st, k. split; [exact E1|]. split; [exact E2|]. split; [exact E3|]. split; [exact E5|]. split; [|exact E6].
  intros Et. destruct (E4 Et) as (H1 & H2 & H3). split; auto.
Qed.
Print Assumptions C26_alsCP_DT.
Theorem C26_alsCP :
  forall (N : num), ring_laws N ->
  forall (LA : lapack N), svd_shaped (svd LA) ->
  forall (clock : nat -> N) (V : tensor N) (R s : nat) (W G F : list (tensor N)) (tol limit : N) (maxiter : Z) (x : io),
  2 <= order V <= 10 -> lens V = repeat s (order V) ->
  factors_ok V W R -> mats_ok V F R -> mats_ok V G R -> (0 <= maxiter)%Z ->
  let step := fun W => let W' := als_sweep (pinv_solve (svd LA) R) n0 V F R W in
                       if neqb (bigsum F norm2) n0 then rescaled W' else W' in
  exists ret st k,
    alsCP LA clock V W G F tol limit maxiter x = Ok (ret, st) /\
    (Z.of_nat k <= maxiter + 1)%Z /\ aW st = Nat.iter k step W /\
    (ret = true -> (Z.of_nat k <= maxiter)%Z /\
        aG st = map (fun n => grad_spec V (aW st) R n) (seq 0 (order V)) /\
        apn st = grad_norm (map (fun n => msub (grad_spec V (aW st) R n) (fac F n)) (seq 0 (order V))) /\
        (nltb (apn st) tol = true \/ nltb limit (nsub (clock (ck (aio st) - 1)) (st_time (aio st))) = true)) /\
    (ret = false -> Z.of_nat k = (maxiter + 1)%Z).
Proof.
  intros N RL LA Hsh clock V R s W G F tol limit maxiter x Ho Hc HW HF HG Hm step.
  destruct (alsCP_run RL LA clock V R s W G F tol limit maxiter x Ho Hc Hsh HW HF HG Hm)
    as (ret & st & k & E1 & E2 & E3 & E4 & E5).
  exists ret, st, k. split; [exact E1|]. split; [exact E2|]. split; [exact E3|]. split; [|exact E5].
  intros Et. destruct (E4 Et) as (H1 & H2 & H3 & H4). split; auto.
Qed.
Print Assumptions C26_alsCP.
Theorem C26_case :
  let run maxiter := alsCP_DT LAz (fun n => Z.of_nat n) true 5 alsV alsW alsW alsF (1%Z : Znum) (1000%Z : Znum) maxiter (0%Z : Znum) 1%Z false
                       (mkIo (N:=Znum) 0 0%Z []) in
  match run 0%Z, run 5%Z with
  | Ok (r0, _), Ok (r5, st) => r0 = false /\ r5 = true /\ length (rows (dtio st)) = 3
  | _, _ => False end.
Proof. vm_compute. auto. Qed.
