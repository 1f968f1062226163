(** Property theorems: pairwise perturbation with partial updates (C45) *)
From Coq Require Import List ZArith Lia Bool Arith Permutation.
From Verif Require Import Base Num Tensor Spec Spec2 MCommon MCP PBase PTensor PSum PMttkrp PPart PMat PMatAlg PGrad PResid PSolve
  PKhatri PTree PDT PDTSweep PALS PDrivers PropALS PPP PPPSweep PPPBad PPPDriver PPPMulti PropPP PropSort PPU.
Import ListNotations.

Definition pu_shaped {N : num} (V : tensor N) (R : nat) (st : pu_state (N:=N)) : Prop :=
  factors_ok V (uW st) R /\ mats_ok V (uG st) R /\ mats_ok V (udW st) R /\ mats_ok V (uM st) R /\ mats_ok V (udM st) R /\
  lens (uS st) = [R; R].
Lemma of_pu_eta {N : num} (V : tensor N) (st : pu_state (N:=N)) seqV : mk_seqV (order V) = Ok seqV -> useq st = seqV ->
  st = of_pu V (mkPu (uW st) (udW st) (udM st) (uM st) (uG st)) (uS st).
Proof. intros Es <-. rewrite mk_seqV_ok in Es. injection Es as Es. destruct st; unfold of_pu; cbn in *. subst. auto. Qed.
Lemma tab_ok {N : num} (RL : ring_laws N) same (V : tensor N) W0 R seqV table : 3 <= order V <= 9 -> factors_ok V W0 R ->
  mk_seqV (order V) = Ok seqV -> build_operators same V W0 seqV = Ok table -> pptab V R table W0.
Proof.
  intros Ho HW0 Es Eb. destruct (C09_operators_exact N RL same V W0 R seqV Ho HW0 Es) as (t & E & H1 & H2 & _).
  rewrite Eb in E. injection E as <-. split; auto.
Qed.
(** what one sweep of the partial-update variant does, for any choice of modes: the first update_size modes in the
    order of decreasing rel are updated, each from the checkpoint MTTKRP plus its accumulated correction *)
Theorem C45_partial_sweep :
  forall (N : num), ring_laws N ->
  forall (LA : lapack N), svd_shaped (svd LA) ->
  forall (same : bool) (V : tensor N) (W0 : list (tensor N)) (R : nat) (st : pu_state (N:=N)) (lambda ratio : N) (regul : tensor N)
    (seqV : buf Z) (table : smap (tensor N)) (update_size : nat) (rel : list N),
  3 <= order V <= 9 -> (neqb lambda n0 = true -> lambda = n0) -> (neqb ratio n1 = true -> ratio = n1) ->
  factors_ok V W0 R -> pu_shaped V R st -> useq st = seqV -> length rel = order V -> update_size <= order V ->
  mk_seqV (order V) = Ok seqV -> mk_regul R lambda = Ok regul -> build_operators same V W0 seqV = Ok table ->
  let s := pu_sweep (pinv_solve (svd LA) R) lambda ratio V W0 R (firstn update_size (sort_indexes rel))
             (mkPu (uW st) (udW st) (udM st) (uM st) (uG st)) in
  exists Sm,
    PU_sweep LA V table W0 lambda ratio regul seqV update_size rel st
    = Ok (map (fun j => ndiv (norm2 (fac (sudM s) j)) (norm2 (fac (suM s) j))) (seq 0 (order V)),
          mkPU (suW s) (suG s) (sudW s) (suM s) (sudM s) Sm seqV) /\
    pu_shaped V R (mkPU (suW s) (suG s) (sudW s) (suM s) (sudM s) Sm seqV).
Proof.
  intros N RL LA Hsh same V W0 R st lambda ratio regul seqV table size rel Ho Hl Hr HW0 (K1 & K2 & K3 & K4 & K5 & K6) Eq Hrel Hsz Es Er Eb s.
  assert (Ht := tab_ok RL same V W0 R seqV table Ho HW0 Es Eb).
  assert (Est := of_pu_eta V st seqV Es Eq). rewrite mk_seqV_ok in Es. injection Es as <-. rewrite (mk_regul_ok RL) in Er. injection Er as <-.
  destruct (PU_sweep_ok RL LA V R Hsh table W0 (mkPu (uW st) (udW st) (udM st) (uM st) (uG st)) (uS st) lambda ratio size rel)
    as (Sm & E & HS & Hok); [lia|auto|auto|auto| |auto|auto|auto|auto| |].
  - unfold pu_ok. cbn [suW sudW sudM suM suG]. auto.
  - rewrite <- Hrel. apply C46_permutation.
  - exists Sm. split; [rewrite Est at 1; exact E|]. destruct Hok as (A1 & A2 & A3 & A4 & A5).
    unfold pu_shaped. cbn [uW uG udW uM udM uS]. auto 10.
Qed.
Print Assumptions C45_partial_sweep.

(** consecutive sweeps of the partial-update code at one checkpoint, in which the selection happens to take all
    modes in their natural order *)
Inductive pu_run {N : num} (LA : lapack N) (V : tensor N) (table : smap (tensor N)) (W0 : list (tensor N)) (lambda ratio : N)
  (regul : tensor N) (seqV : buf Z) : nat -> list N -> pu_state (N:=N) -> pu_state (N:=N) -> Prop :=
| pu_run_0 rel st : pu_run LA V table W0 lambda ratio regul seqV 0 rel st st
| pu_run_S n rel st rel1 st1 st' :
    length rel = order V -> sort_indexes rel = seq 0 (order V) ->
    PU_sweep LA V table W0 lambda ratio regul seqV (order V) rel st = Ok (rel1, st1) ->
    pu_run LA V table W0 lambda ratio regul seqV n rel1 st1 st' ->
    pu_run LA V table W0 lambda ratio regul seqV (S n) rel st st'.
(** the same number of sweeps of the pairwise-perturbation code *)
Fixpoint pp_run {N : num} (LA : lapack N) (V : tensor N) (table : smap (tensor N)) (W0 : list (tensor N)) (lambda ratio : N)
  (regul : tensor N) (seqV : buf Z) (n : nat) (st : list (tensor N) * list (tensor N) * list (tensor N) * tensor N * buf Z)
  : res (list (tensor N) * list (tensor N) * list (tensor N) * tensor N * buf Z) :=
  match n with
  | 0 => Ok st
  | S n => let '(W, G, dW, Sm, sq) := st in
           st <- PP_sweep LA V table W0 lambda ratio regul seqV W G dW Sm sq ;;
           pp_run LA V table W0 lambda ratio regul seqV n st
  end.
Theorem C45_in_order_sweeps :
  forall (N : num), ring_laws N ->
  forall (LA : lapack N), svd_shaped (svd LA) ->
  forall (same : bool) (V : tensor N) (W0 : list (tensor N)) (R : nat) (st st' : pu_state (N:=N)) (lambda ratio : N) (regul : tensor N)
    (seqV : buf Z) (table : smap (tensor N)) (n : nat) (rel : list N),
  3 <= order V <= 9 -> (neqb lambda n0 = true -> lambda = n0) -> (neqb ratio n1 = true -> ratio = n1) ->
  factors_ok V W0 R -> pu_shaped V R st -> useq st = seqV ->
  zero_mats V (udW st) R -> zero_mats V (udM st) R ->
  mk_seqV (order V) = Ok seqV -> mk_regul R lambda = Ok regul -> build_operators same V W0 seqV = Ok table ->
  pu_run LA V table W0 lambda ratio regul seqV n rel st st' ->
  exists Sm', pp_run LA V table W0 lambda ratio regul seqV n (uW st, uG st, udW st, uS st, seqV)
              = Ok (uW st', uG st', udW st', Sm', seqV).
Proof.
  intros N RL LA Hsh same V W0 R st st' lambda ratio regul seqV table n rel Ho Hl Hr HW0 Hst Eq HzW HzM Es Er Eb Hrun.
  assert (Hinv : pu_inv V R W0 0 (mkPu (uW st) (udW st) (udM st) (uM st) (uG st))) by (apply (pu_inv_zero RL LA V R W0); auto; apply HW0).
  clear HzW HzM. generalize (eq_refl (lens (uS st))). revert Hinv Hst Eq.
  cut (forall Sx, pu_inv V R W0 0 (mkPu (uW st) (udW st) (udM st) (uM st) (uG st)) -> pu_shaped V R st -> useq st = seqV -> lens Sx = lens (uS st) ->
    exists Sm', pp_run LA V table W0 lambda ratio regul seqV n (uW st, uG st, udW st, Sx, seqV) = Ok (uW st', uG st', udW st', Sm', seqV)).
  { intros H; intros; apply H; auto. }
  induction Hrun as [rel st|n rel st rel1 st1 st' Hrel Hord E Hrun IH]; intros Sx Hinv Hst Eq HSx.
  - exists Sx. reflexivity.
  - destruct (C45_partial_sweep N RL LA Hsh same V W0 R st lambda ratio regul seqV table (order V) rel) as (Sm & E1 & Hs1); auto.
    rewrite E1 in E. injection E as <- <-. rewrite Hord in *. rewrite firstn_all2 in * by (rewrite seq_length; auto).
    set (s := pu_sweep _ _ _ _ _ _ _ _) in *. cbn [pp_run]. destruct Hst as (K1 & K2 & K3 & K4 & K5 & K6).
    destruct (C11_sweep N RL LA Hsh same V W0 (uW st) (udW st) (uG st) R Sx lambda ratio regul seqV table) as (Sm1 & E2); auto; [rewrite HSx; auto|].
    assert (Hspec := pu_sweep_pp RL LA V R Hsh lambda ratio W0 (mkPu (uW st) (udW st) (udM st) (uM st) (uG st)) ltac:(lia) HW0).
    destruct Hspec as (_ & Hi1 & Hpp & HG); auto. { unfold pu_ok. cbn [suW sudW sudM suM suG]. auto. }
    fold s in Hi1, Hpp, HG. cbn [suW sudW] in Hpp, HG. rewrite E2. cbn [bind]. rewrite <- Hpp, <- HG. cbn [fst snd].
    cbn [uW uG udW uM udM uS useq] in IH.
    apply IH; auto. clear IH.
    cbn [uS]. assert (Hx : lens Sm = [R; R]) by apply Hs1. rewrite Hx.
    assert (Ht := tab_ok RL same V W0 R seqV table Ho HW0 Es Eb).
    rewrite mk_seqV_ok in Es. injection Es as <-. rewrite (mk_regul_ok RL) in Er. injection Er as <-.
    destruct (PP_sweep_ok RL V R LA Hsh table W0 (uW st) (uG st) (udW st) Sx lambda ratio) as (Sm2 & E3 & HS3);
      [lia|auto|auto|auto|auto|auto|auto|rewrite HSx; auto|auto|].
    rewrite E3 in E2. injection E2. intros; subst. auto.
Qed.
Print Assumptions C45_in_order_sweeps.

(** the first sweep after a checkpoint starts from equal priorities, so with update_size = order it is always an
    in-order sweep: it leaves exactly what the pairwise-perturbation sweep leaves *)
Theorem C45_first_full_sweep :
  forall (N : num), ring_laws N ->
  forall (LA : lapack N), svd_shaped (svd LA) ->
  forall (same : bool) (V : tensor N) (W0 : list (tensor N)) (R : nat) (st : pu_state (N:=N)) (lambda ratio : N) (regul : tensor N)
    (seqV : buf Z) (table : smap (tensor N)),
  3 <= order V <= 9 -> (neqb lambda n0 = true -> lambda = n0) -> (neqb ratio n1 = true -> ratio = n1) -> lt_asym N ->
  factors_ok V W0 R -> pu_shaped V R st -> useq st = seqV ->
  zero_mats V (udW st) R -> zero_mats V (udM st) R ->
  mk_seqV (order V) = Ok seqV -> mk_regul R lambda = Ok regul -> build_operators same V W0 seqV = Ok table ->
  exists rel' st' Sm',
    PU_sweep LA V table W0 lambda ratio regul seqV (order V) (repeat n0 (order V)) st = Ok (rel', st') /\
    PP_sweep LA V table W0 lambda ratio regul seqV (uW st) (uG st) (udW st) (uS st) seqV
    = Ok (uW st', uG st', udW st', Sm', seqV).
Proof.
  intros N RL LA Hsh same V W0 R st lambda ratio regul seqV table Ho Hl Hr H00 HW0 Hst Eq HzW HzM Es Er Eb.
  destruct (C45_partial_sweep N RL LA Hsh same V W0 R st lambda ratio regul seqV table (order V) (repeat n0 (order V))) as (Sm & E1 & Hs1);
    auto; [apply repeat_length|].
  eexists _, _.
  match type of E1 with _ = Ok (?r, ?s) => destruct (C45_in_order_sweeps N RL LA Hsh same V W0 R st s lambda ratio regul seqV table 1 (repeat n0 (order V)))
    as (Sm' & E2) end; auto.
  - eapply pu_run_S; [apply repeat_length|apply C46_ties; auto|exact E1|apply pu_run_0].
  - exists Sm'. split; [exact E1|]. cbn [pp_run] in E2.
    destruct (PP_sweep LA V table W0 lambda ratio regul seqV (uW st) (uG st) (udW st) (uS st) seqV); cbn [bind] in E2; [|discriminate].
    exact E2.
Qed.
Print Assumptions C45_first_full_sweep.

(** ** refutations for selections that do not take every mode once between two updates of a mode *)
(** the MTTKRP recorded for mode j by the last update, after updating the given modes in this order from a
    fresh checkpoint *)
Definition pu_seq {N : num} (LA : lapack N) (V : tensor N) (W0 : list (tensor N)) (R : nat) (lambda ratio : N) (table : smap (tensor N))
  (regul : tensor N) (seqV : buf Z) (modes : list nat) : res (pu_state (N:=N)) :=
  fold_left (fun acc i => st <- acc ;; PU_mode LA V table W0 lambda ratio regul seqV i st) modes
    (Ok (mkPU W0 (zmats V R) (zmats V R) (zmats V R) (zmats V R) (zeros [R; R]) seqV)).
(** a mode updated twice in a row is solved the second time with the plain checkpoint MTTKRP: the corrections of
    all the other modes that moved are lost *)
Theorem C45_repeated_mode_loses_corrections :
  forall (N : num), ring_laws N ->
  forall (LA : lapack N), svd_shaped (svd LA) ->
  forall (same : bool) (V : tensor N) (W0 : list (tensor N)) (R : nat) (st st1 st2 : pu_state (N:=N)) (lambda ratio : N) (regul : tensor N)
    (seqV : buf Z) (table : smap (tensor N)) (i : nat),
  3 <= order V <= 9 -> (neqb lambda n0 = true -> lambda = n0) -> (neqb ratio n1 = true -> ratio = n1) ->
  factors_ok V W0 R -> pu_shaped V R st -> useq st = seqV -> i < order V ->
  mk_seqV (order V) = Ok seqV -> mk_regul R lambda = Ok regul -> build_operators same V W0 seqV = Ok table ->
  PU_mode LA V table W0 lambda ratio regul seqV i st = Ok st1 ->
  PU_mode LA V table W0 lambda ratio regul seqV i st1 = Ok st2 ->
  fac (uM st2) i = mttkrp V W0 i R.
Proof.
  intros N RL LA Hsh same V W0 R st st1 st2 lambda ratio regul seqV table i Ho Hl Hr HW0 (K1 & K2 & K3 & K4 & K5 & K6) Eq Hi Es Er Eb E1 E2.
  assert (Ht := tab_ok RL same V W0 R seqV table Ho HW0 Es Eb).
  assert (Est := of_pu_eta V st seqV Es Eq). rewrite mk_seqV_ok in Es. injection Es as <-. rewrite (mk_regul_ok RL) in Er. injection Er as <-.
  set (s0 := mkPu (uW st) (udW st) (udM st) (uM st) (uG st)) in *.
  assert (Hok : pu_ok V R s0) by (unfold pu_ok, s0; cbn [suW sudW sudM suM suG]; auto).
  rewrite Est in E1. rewrite (PU_mode_ok RL LA V R Hsh table W0 s0 (uS st) lambda ratio i) in E1 by (auto; lia). injection E1 as <-.
  assert (Hok1 := pu_update_ok RL LA V R Hsh lambda ratio W0 s0 i HW0 Hok Hi).
  rewrite (PU_mode_ok RL LA V R Hsh table W0 _ _ lambda ratio i) in E2; [|lia|auto|auto|auto|auto|auto|apply lhs_mat|auto]. injection E2 as <-.
  unfold of_pu. cbn [uM]. set (s1 := pu_update _ _ _ _ _ _ s0 i) in *. unfold pu_update at 1. cbn [suM].
  rewrite fac_setf by (destruct Hok1 as (_ & _ & _ & [-> _] & _); auto). rewrite Nat.eqb_refl.
  apply (mat_ext _ _ (nth i (lens V) 0) R).
  - apply madd_mat. split; [reflexivity|apply tabulate_wf].
  - split; [reflexivity|apply tabulate_wf].
  - intros a k Ha Hk. rewrite (el_madd _ _ (nth i (lens V) 0%nat) R); auto; [|split; [reflexivity|apply tabulate_wf]].
    unfold s1, pu_update. cbn [sudM]. rewrite fac_map_seq by auto. rewrite Nat.eqb_refl. unfold zeros, el at 2.
    rewrite at_tabulate by (apply inb2; auto). rewrite (Radd_comm RL), (Radd_0_l RL). reflexivity.
Qed.
Print Assumptions C45_repeated_mode_loses_corrections.
(** concretely: after updates 1,0,0 the second update of mode 0 has lost the move of factor 1, and after 0,0,1
    mode 1 has counted the move of factor 0 twice; in both cases the accumulated approximation is not the
    first-order expansion that the plain variant would use for the same perturbations *)
Definition puV : tensor Znum := @tabulate Znum [2; 2; 2] (fun x => (1 + Z.of_nat (nth 0 x 0 + 2 * nth 1 x 0 + 4 * nth 2 x 0)%nat)%Z).
Definition puW : list (tensor Znum) := [zt [2; 2] [1; 0; 2; 1]%Z; mid 2; mid 2].
Definition puLA : lapack Znum :=
  @mkLapack Znum (fun S k => (mid k, @tabulate Znum [k] (fun _ => 1%Z), mid k)) (fun A => A) (fun B L _ _ _ => B) (fun A => A) (fun _ ls => zeros ls).
Definition pu_test (modes : list nat) (j : nat) : option (list Z * list Z) :=
  match mk_seqV 3, mk_regul 2 (0%Z : Znum) with
  | Ok sq, Ok rg => match build_operators false puV puW sq with
     | Ok t => match pu_seq puLA puV puW 2 (0%Z : Znum) (1%Z : Znum) t rg sq modes,
                     pu_seq puLA puV puW 2 (0%Z : Znum) (1%Z : Znum) t rg sq (modes ++ [j]) with
               | Ok s, Ok s' => Some (data (fac (uM s') j), data (pp_mttkrp puV puW (udW s) j 2))
               | _, _ => None end
     | _ => None end
  | _, _ => None end.
Theorem C45_selection_refuted :
  factors_ok puV puW 2 /\
  (exists a, pu_test [0; 1; 2; 0; 1; 2] 0 = Some (a, a)) /\
  (exists a b, pu_test [1; 0] 0 = Some (a, b) /\ a <> b) /\
  (exists a b, pu_test [0; 0] 1 = Some (a, b) /\ a <> b).
Proof.
  split.
  - split; [reflexivity|]. split; [reflexivity|]. intros m Hm; cbn in Hm; do 3 (destruct m as [|m]; [split; reflexivity|]); lia.
  - split; [eexists; vm_compute; reflexivity|]. split; eexists; eexists; (split; [vm_compute; reflexivity|discriminate]).
Qed.
Print Assumptions C45_selection_refuted.
Theorem C45_case :
  svd_shaped (svd puLA) /\
  let st := mkPU puW (zmats puV 2) (zmats puV 2) (zmats puV 2) (zmats puV 2) (zeros [2; 2]) (lbuf 3) in
  pu_shaped puV 2 st /\ zero_mats puV (udW st) 2 /\ zero_mats puV (udM st) 2 /\ mk_seqV 3 = Ok (lbuf 3).
Proof.
  split.
  { intros S k HS. cbn. split; [apply mdiag_mat|]. split; [reflexivity|]. split; [apply tabulate_wf|apply mdiag_mat]. }
  assert (Hz : mats_ok puV (zmats puV 2) 2) by apply zmats_mats.
  assert (Hf : factors_ok puV puW 2) by apply C45_selection_refuted.
  cbv zeta. split; [unfold pu_shaped; cbn [uW uG udW uM udM uS]; auto 10|].
  split; [|split].
  - intros m i j. apply zmats_zero.
  - intros m i j. apply zmats_zero.
  - reflexivity.
Qed.
