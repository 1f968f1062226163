(** Property theorems: pairwise perturbation (C09, C10, C11, C12, C27, C28) *)
From Coq Require Import List ZArith QArith Lia Bool Arith Permutation Reals Lra.
From Verif Require Import Base Num NumR Tensor Spec Spec2 MCommon MCP PBase PTensor PSum PMttkrp PPart PMat PMatAlg PGrad PResid PSolve
  PKhatri PTree PDT PDTSweep PALS PDrivers PropALS PPP PPPSweep PPPBad PPPDriver PPPMulti.
Import ListNotations.
Local Close Scope Q_scope.
Local Close Scope R_scope.

(** ** C09 *)
Section Converse.
Context {N : num} (RL : ring_laws N) (d : Z -> nat) (ltr : nat -> Z) (rk : Z) (ord : nat).
Hypothesis ltr_inj : forall i j, i < ord -> j < ord -> ltr i = ltr j -> i = j.
Hypothesis rk_fresh : forall i, i < ord -> ltr i <> rk.
Lemma partial_rep (V : tensor N) W rest :
  NoDup rest -> (forall m, In m rest -> m < ord) -> lens V = map d (letters ltr ord) ->
  rep d (partial_mttkrp V W rest (d rk)) (map ltr rest ++ [rk]) (PM d ltr rk ord V (fac W) (outside rest ord)).
Proof.
  intros Hn Hr HV.
  assert (Hnth : forall n, n < ord -> nth n (lens V) 0 = d (ltr n)).
  { intros n H. rewrite HV. unfold letters. rewrite map_map.
    rewrite (nth_indep _ 0 (d (ltr 0))) by (rewrite map_length, seq_length; auto).
    rewrite (map_nth (fun i => d (ltr i))), seq_nth; auto. }
  assert (El : map (fun m => nth m (lens V) 0) rest ++ [d rk] = map d (map ltr rest ++ [rk])).
  { rewrite map_app, map_map. cbn. f_equal. apply map_ext_in. auto. }
  split; [apply tabulate_wf|]. split; [exact El|]. intros e He. unfold partial_mttkrp. rewrite El.
  rewrite at_tabulate by (apply inb_map; auto).
  rewrite map_app, map_map. cbn [map].
  rewrite firstn_app, map_length, Nat.sub_diag. cbn [firstn]. rewrite app_nil_r, firstn_all2 by (rewrite map_length; auto).
  rewrite app_nth2 by (rewrite map_length; auto). rewrite map_length, Nat.sub_diag. cbn [nth].
  symmetry. apply (PM_partial RL); auto. intros m Hm. apply He. apply in_or_app. left. apply in_map. auto.
Qed.
End Converse.
(** an increasing list of modes below o *)
Definition modes_of (o : nat) (ms : list nat) : Prop := exists p, ms = filter p (seq 0 o).
(** the table maps the letters of some contracted modes to the partial MTTKRP over the remaining ones *)
Definition exact_table {N} (V : tensor N) (W : list (tensor N)) (R : nat) (table : smap (tensor N)) : Prop :=
  forall key T, table key = Some T ->
  exists ms, modes_of (order V) ms /\ ms <> [] /\ key = map chr ms /\
             T = partial_mttkrp V W (outside ms (order V)) R.
Lemma exact_table_iff {N} (RL : ring_laws N) (V : tensor N) W R mp : 1 <= order V <= 31 -> (exact_table V W R mp <-> pptable V R W mp).
Proof.
  intros Ho. split; intros H s T E; destruct (H s T E) as (ms & Ha & Hne & Es & HT); exists ms; split; auto; split; auto; split; auto.
  - subst T. unfold ppnode.
    assert (Hr := partial_rep RL (dV (lens V) ch_star R) chr ch_star (order V) (DT_inj V Ho) (DT_fresh V Ho) V W (outside ms (order V))
      (outside_nodup _ _) (fun m Hm => proj1 (proj1 (outside_in _ _ _) Hm)) (DT_letters V R Ho)).
    rewrite (DT_rk V R) in Hr. rewrite outside_outside in Hr by auto. exact Hr.
  - apply (node_partial RL V R Ho); auto.
Qed.
(** one request, whatever correct entries are already in the table (intermediates are taken from it or built
    recursively): the requested entry is present and every entry, old or new, is exact *)
Theorem C09_request_exact :
  forall (N : num), ring_laws N ->
  forall (same : bool) (V : tensor N) (W : list (tensor N)) (R fuel : nat) (ms : list nat) (table : smap (tensor N)),
  1 <= order V <= 31 -> factors_ok V W R -> modes_of (order V) ms -> 1 <= length ms <= 8 -> length ms <= fuel ->
  exact_table V W R table ->
  exists table', Build_mttkrp_map fuel same V W table (map chr ms) = Ok table' /\
    table' (map chr ms) = Some (partial_mttkrp V W (outside ms (order V)) R) /\
    exact_table V W R table' /\ (forall key, table key <> None -> table' key = table key).
Proof.
  intros N RL same V W R fuel ms mp Ho HW Ha Hl Hf Ht. apply (exact_table_iff RL) in Ht; auto.
  destruct (Build_ok RL V R Ho same W HW fuel ms mp Ha Hl Hf Ht) as (mp' & E & Ht' & (T & ET) & Hk).
  exists mp'. split; auto. split; [|split].
  - rewrite ET. f_equal. rewrite <- (outside_outside (order V) ms) in ET by auto.
    apply (table_entry RL V R Ho W mp' (outside ms (order V)) T); auto. apply outside_asc.
  - apply (exact_table_iff RL); auto.
  - intros key Hkey. specialize (Hk key Hkey). destruct (mp key) as [A|] eqn:EA; [|contradiction]. destruct (mp' key) as [B|] eqn:EB; [|contradiction].
    f_equal. destruct (Ht _ _ EA) as (m1 & A1 & A2 & A3 & A4). destruct (Ht' _ _ EB) as (m2 & B1 & B2 & B3 & B4).
    rewrite A3 in B3. apply (asc_chr_inj V Ho) in B3; auto. subst m2.
    apply (node_partial RL V R Ho) in A4; auto. apply (node_partial RL V R Ho) in B4; auto. congruence.
Qed.
Print Assumptions C09_request_exact.
(** all operators of a checkpoint *)
Theorem C09_operators_exact :
  forall (N : num), ring_laws N ->
  forall (same : bool) (V : tensor N) (W : list (tensor N)) (R : nat) (seqV : buf Z),
  3 <= order V <= 9 -> factors_ok V W R -> mk_seqV (order V) = Ok seqV ->
  exists table, build_operators same V W seqV = Ok table /\
    (forall i, i < order V -> table (map chr (outside [i] (order V))) = Some (mttkrp V W i R)) /\
    (forall i j, i < j -> j < order V ->
       table (map chr (outside [i; j] (order V))) = Some (partial_mttkrp V W [i; j] R)) /\
    exact_table V W R table.
Proof.
  intros N RL same V W R seqV Ho HW Es. rewrite mk_seqV_ok in Es. injection Es as <-.
  destruct (build_operators_ok RL V R ltac:(lia) same W HW Ho) as (mp & E & Ht & Hp & H1).
  assert (He : forall rest, asc (order V) rest -> has V mp rest -> mp (map chr (outside rest (order V))) = Some (partial_mttkrp V W rest R)).
  { intros rest Ha Hh. unfold has in Hh. destruct (mp (map chr (outside rest (order V)))) as [T|] eqn:ET; [|contradiction].
    f_equal. apply (table_entry RL V R ltac:(lia) W mp rest T); auto. }
  exists mp. split; auto. split; [|split].
  - intros i Hi. rewrite (He [i]); auto; [|apply asc_one; auto]. f_equal. apply partial_one.
  - intros i j Hi Hj. apply He; auto. apply asc_two; auto.
  - apply (exact_table_iff RL); auto. lia.
Qed.
Print Assumptions C09_operators_exact.
Theorem C09_case :
  match mk_seqV 4 with
  | Ok sq => match build_operators false alsV alsW sq with
             | Ok t => t [98; 99]%Z = Some (partial_mttkrp alsV alsW [0; 3] 2) /\
                       nth 0 (data (partial_mttkrp alsV alsW [0; 3] 2)) 0%Z <> 0%Z
             | _ => False end
  | _ => False end.
Proof. vm_compute. split; [reflexivity|discriminate]. Qed.

(** ** C10 *)
Theorem C10_operator_buffer_overrun :
  forall (N : num), ring_laws N ->
  forall (same : bool) (V : tensor N) (W : list (tensor N)) (R : nat) (seqV : buf Z),
  10 <= order V -> factors_ok V W R -> mk_seqV (order V) = Ok seqV ->
  build_operators same V W seqV = Err UB.
Proof.
  intros N RL same V W R seqV Ho HW Es. rewrite mk_seqV_ok in Es. injection Es as <-.
  destruct (Nat.eq_dec (order V) 10) as [E|].
  - rewrite E. apply (build_operators_10 RL same V W R); auto.
  - apply build_operators_big; [lia|]. intros ->. destruct HW as (_ & HL & _). cbn in HL. lia.
Qed.
Print Assumptions C10_operator_buffer_overrun.
(** one request for nine or more contracted modes writes outside the eight-character buffer *)
Theorem C10_long_request :
  forall (N : num) (same : bool) (V : tensor N) (W : list (tensor N)) (fuel : nat) (key : str) (table : smap (tensor N)),
  W <> [] -> 9 <= length key -> Build_mttkrp_map (S fuel) same V W table key = Err UB.
Proof. intros. apply Build_ub; auto. Qed.
Print Assumptions C10_long_request.
(** and so the pairwise-perturbation driver in benchmark mode (which starts with this phase) is undefined *)
Theorem C10_driver :
  forall (N : num), ring_laws N ->
  forall (LA : lapack N) (clock : nat -> N) (rank0 : bool) (wf fuel : nat) (same : bool) (V : tensor N) (W G : list (tensor N))
    (R : nat) (tol tol_init limit lambda ratio : N) (maxiter resprint : Z) (x : io),
  10 <= order V -> factors_ok V W R -> (0 <= maxiter)%Z -> nltb tol (nlit 10) = true ->
  alsCP_PP LA clock rank0 (S wf) fuel same V W G tol tol_init limit maxiter lambda ratio resprint true x = Err UB.
Proof.
  intros N RL LA clock rank0 wf fuel same V W G R tol tol_init limit lambda ratio maxiter resprint x Ho HW Hm Ht.
  unfold alsCP_PP, wtime. rewrite (mk_dW_ok RL LA V R) by auto. cbn [bind pp_while ppn]. rewrite Ht.
  destruct (Z.leb_spec 0 maxiter); [|lia]. cbn [andb bind]. unfold alsCP_PP_sub at 1. cbn [pW].
  rewrite (W_lget LA V R W 0) by (auto; lia). cbn [bind].
  rewrite (mk_regul_ok RL). cbn [bind]. rewrite mk_seqV_ok. cbn [bind].
  unfold rounds. replace (Z.to_nat (maxiter + 1 - 0)) with (S (Z.to_nat maxiter)) by lia. cbn [for_iter].
  unfold PP_sub_iter at 1. cbn [bind bst pW pdW]. cbn [Z.sub Z.opp Z.add Z.rem Z.quotrem fst snd Z.eqb orb andb Nat.ltb Nat.leb negb].
  rewrite (zero_dW_ok RL LA V R) by (apply zmats_mats). cbn [bind].
  rewrite (C10_operator_buffer_overrun N RL same V W R (lbuf (order V))); auto. rewrite mk_seqV_ok. auto.
Qed.
Print Assumptions C10_driver.
(** orders 1 and 2 are undefined too *)
Theorem C10_orders_1_and_2 :
  forall (N : num) (same : bool) (V : tensor N) (W : list (tensor N)) (seqV : buf Z),
  order V = 1 \/ order V = 2 -> mk_seqV (order V) = Ok seqV -> build_operators same V W seqV = Err UB.
Proof. intros N same V W seqV Ho Es. rewrite mk_seqV_ok in Es. injection Es as <-. apply build_operators_small; auto. Qed.
Print Assumptions C10_orders_1_and_2.
Definition ppV10 : tensor Znum := zeros (repeat 1 10).
Definition ppW10 : list (tensor Znum) := repeat (zeros [1; 1]) 10.
Theorem C10_case : factors_ok ppV10 ppW10 1 /\ order ppV10 = 10 /\ nltb (0%Z : Znum) (nlit 10) = true /\
  match mk_seqV 10 with Ok sq => match build_operators false ppV10 ppW10 sq with Err UB => True | _ => False end | _ => False end.
Proof.
  split; [|vm_compute; auto]. split; [reflexivity|]. split; [reflexivity|].
  intros m Hm; cbn in Hm; do 10 (destruct m as [|m]; [split; reflexivity|]); lia.
Qed.

(** ** C11: the MTTKRP used by a pairwise-perturbation sweep for mode n, with operators built at W0 and
    perturbations dW, is the checkpoint MTTKRP plus the checkpoint MTTKRPs with one factor replaced by its perturbation *)
Theorem C11_pp_mttkrp :
  forall (N : num), ring_laws N ->
  forall (same : bool) (V : tensor N) (W0 dW : list (tensor N)) (R n : nat) (seqV : buf Z) (table : smap (tensor N)),
  3 <= order V <= 9 -> n < order V -> factors_ok V W0 R -> mats_ok V dW R ->
  mk_seqV (order V) = Ok seqV -> build_operators same V W0 seqV = Ok table ->
  exists M, pp_M V table seqV dW (nth n (lens V) 0) R n = Ok M /\ is_mat M (nth n (lens V) 0) R /\
    forall i k, i < nth n (lens V) 0 -> k < R ->
      el M i k = nadd (el (mttkrp V W0 n R) i k)
                      (bigsum (others n (order V)) (fun m => el (mttkrp V (setf W0 m (fac dW m)) n R) i k)).
Proof.
  intros N RL same V W0 dW R n seqV table Ho Hn HW HD Es Eb.
  destruct (C09_operators_exact N RL same V W0 R seqV Ho HW Es) as (t & E & H1 & H2 & _). rewrite Eb in E. injection E as <-.
  rewrite mk_seqV_ok in Es. injection Es as <-.
  exists (pp_mttkrp V W0 dW n R). split; [|split].
  - apply (pp_M_ok RL V R); auto; try lia. apply HW.
  - apply pp_mttkrp_mat.
  - intros i k Hi Hk. unfold pp_mttkrp, el at 1. rewrite at_tabulate by (apply inb2; auto). reflexivity.
Qed.
Print Assumptions C11_pp_mttkrp.
(** a whole sweep: every mode solves the regularised normal equations with that MTTKRP, and the gradients
    recorded are those of the expansion *)
Theorem C11_sweep :
  forall (N : num), ring_laws N ->
  forall (LA : lapack N), svd_shaped (svd LA) ->
  forall (same : bool) (V : tensor N) (W0 W dW G : list (tensor N)) (R : nat) (Sm : tensor N) (lambda ratio : N) (regul : tensor N)
    (seqV : buf Z) (table : smap (tensor N)),
  3 <= order V <= 9 -> (neqb lambda n0 = true -> lambda = n0) -> (neqb ratio n1 = true -> ratio = n1) ->
  factors_ok V W0 R -> factors_ok V W R -> mats_ok V dW R -> mats_ok V G R -> lens Sm = [R; R] ->
  mk_seqV (order V) = Ok seqV -> mk_regul R lambda = Ok regul -> build_operators same V W0 seqV = Ok table ->
  let solve := pinv_solve (svd LA) R in
  exists Sm',
    PP_sweep LA V table W0 lambda ratio regul seqV W G dW Sm seqV
    = Ok (fst (pp_sweep solve lambda ratio V W0 R (W, dW)), pp_grads solve lambda ratio V W0 R (W, dW),
          snd (pp_sweep solve lambda ratio V W0 R (W, dW)), Sm', seqV).
Proof.
  intros N RL LA Hsh same V W0 W dW G R Sm lambda ratio regul seqV table Ho Hl Hr HW0 HW HD HG HS Es Er Eb solve.
  destruct (C09_operators_exact N RL same V W0 R seqV Ho HW0 Es) as (t & E & H1 & H2 & _). rewrite Eb in E. injection E as <-.
  rewrite mk_seqV_ok in Es. injection Es as <-. rewrite (mk_regul_ok RL) in Er. injection Er as <-.
  destruct (PP_sweep_ok RL V R LA Hsh table W0 W G dW Sm lambda ratio) as (Sm' & E & _); auto; [lia|split; auto|].
  exists Sm'. rewrite E. unfold pp_sweep. fold solve. destruct (pp_upto solve lambda ratio V W0 R (order V) (W, dW)). reflexivity.
Qed.
Print Assumptions C11_sweep.
(** what is dropped is of second order: with perturbations scaled by t, the exact MTTKRP of the moved factors
    minus the expansion is t^2 times a polynomial in t *)
Theorem C11_remainder_second_order :
  forall (N : num), ring_laws N ->
  forall (V : tensor N) (R : nat) (W0 dW : list (tensor N)) (n i k : nat),
  mats_ok V W0 R -> mats_ok V dW R -> n < order V -> i < nth n (lens V) 0 -> k < R ->
  exists coeffs, forall t : N,
    el (mttkrp V (map (fun m => madd (fac W0 m) (mscal t (fac dW m))) (seq 0 (order V))) n R) i k
    = nadd (el (pp_mttkrp V W0 (map (mscal t) dW) n R) i k) (nmul (nmul t t) (peval coeffs t)).
Proof. intros N RL V R W0 dW n i k H1 H2 H3 H4 H5. exact (mttkrp_expansion RL V R W0 dW n i k H1 H2 H3 H4 H5). Qed.
Print Assumptions C11_remainder_second_order.
Definition ppD : list (tensor Znum) := [zt [2; 2] [1; 0; 0; 1]%Z; zt [2; 2] [0; 1; 1; 0]%Z; zt [2; 2] [1; 1; 0; 0]%Z; zt [2; 2] [2; 0; 0; 0]%Z].
(** the expansion is used, and differs from the exact MTTKRP when several factors move *)
Theorem C11_case :
  mats_ok alsV ppD 2 /\
  match mk_seqV 4 with
  | Ok sq => match build_operators false alsV alsW sq with
             | Ok t => match pp_M alsV t sq ppD 2 2 0 with
                       | Ok M => data M = data (pp_mttkrp alsV alsW ppD 0 2) /\
                                 data M <> data (mttkrp alsV (map (fun m => madd (fac alsW m) (fac ppD m)) (seq 0 4)) 0 2)
                       | _ => False end
             | _ => False end
  | _ => False end.
Proof.
  split.
  - split; [reflexivity|]. intros m Hm; cbn in Hm; do 4 (destruct m as [|m]; [split; reflexivity|]); lia.
  - vm_compute. split; [reflexivity|discriminate].
Qed.

(** ** C12 *)
Theorem C12_exact_when_one_factor_moved :
  forall (N : num), ring_laws N ->
  forall (same : bool) (V : tensor N) (W0 dW W : list (tensor N)) (R n m : nat) (seqV : buf Z) (table : smap (tensor N)),
  3 <= order V <= 9 -> n < order V -> m < order V -> m <> n ->
  factors_ok V W0 R -> mats_ok V dW R -> length W = order V ->
  mk_seqV (order V) = Ok seqV -> build_operators same V W0 seqV = Ok table ->
  (forall q, q < order V -> q <> n -> fac W q = madd (fac W0 q) (fac dW q)) ->
  (forall q, q < order V -> q <> n -> q <> m -> fac W q = fac W0 q) ->
  pp_M V table seqV dW (nth n (lens V) 0) R n = Ok (mttkrp V W n R).
Proof.
  intros N RL same V W0 dW W R n m seqV table Ho Hn Hm Hne HW HD HL Es Eb Hall Hone.
  destruct (C09_operators_exact N RL same V W0 R seqV Ho HW Es) as (t & E & H1 & H2 & _). rewrite Eb in E. injection E as <-.
  rewrite mk_seqV_ok in Es. injection Es as <-.
  rewrite (pp_M_ok RL V R table W0 dW n) by (auto; try lia; apply HW). f_equal.
  apply (pp_exact_one RL V R W0 dW W n m); auto. apply (factors_mats V R). auto.
Qed.
Print Assumptions C12_exact_when_one_factor_moved.
(** in particular in the first sweep after a checkpoint: mode 0 (nothing moved yet), and mode 1 (only factor 0
    moved), are solved with the exact MTTKRP of the current factors *)
Theorem C12_first_sweep :
  forall (N : num), ring_laws N ->
  forall (LA : lapack N), svd_shaped (svd LA) ->
  forall (V : tensor N) (W0 : list (tensor N)) (R : nat) (lambda ratio : N),
  2 <= order V -> factors_ok V W0 R ->
  let solve := pinv_solve (svd LA) R in
  let '(W1, dW1) := pp_update solve lambda ratio V W0 R (W0, zmats V R) 0 in
  pp_mttkrp V W0 (zmats V R) 0 R = mttkrp V W0 0 R /\
  (forall n, 0 < n < order V -> pp_mttkrp V W0 dW1 n R = mttkrp V W1 n R).
Proof.
  intros N RL LA Hsh V W0 R lambda ratio Ho HW solve. unfold pp_update.
  assert (HM : mats_ok V W0 R) by (apply (factors_mats V R); auto).
  assert (Hz : mats_ok V (zmats V R) R) by apply zmats_mats.
  assert (HL : length W0 = order V) by apply HW. assert (HLz : length (zmats V R) = order V) by apply Hz.
  assert (Hmz : forall q, q < order V -> madd (fac W0 q) (fac (zmats V R) q) = fac W0 q).
  { intros q Hq. destruct HM as [_ HM]. destruct (HM q Hq) as [El Hw]. apply tensor_ext; auto; [apply tabulate_wf|].
    intros idx Hi. unfold madd in *. cbn [lens tabulate] in Hi. rewrite at_tabulate by auto.
    rewrite El in Hi. apply inb2_inv in Hi as (i & j & -> & Hi & Hj).
    assert (E0 := zmats_zero V R q i j Hq Hi Hj). unfold el in E0. rewrite E0. rewrite (Radd_comm RL), (Radd_0_l RL). reflexivity. }
  split.
  - apply (pp_exact_one RL V R W0 (zmats V R) W0 0 1); auto; try lia. intros q Hq _. symmetry; auto.
  - intros n Hn. apply (pp_exact_one RL V R W0 _ _ n 0); auto; try lia.
    + apply setf_mats; auto; [lia|]. apply (pp_step_mat RL V R LA Hsh).
    + rewrite setf_length; auto.
    + intros q Hq _. rewrite !fac_setf by lia. destruct (Nat.eqb_spec q 0); [subst; auto|]. symmetry; auto.
    + intros q Hq _ Hq0. rewrite fac_setf by lia. destruct (Nat.eqb_spec q 0); [contradiction|]. auto.
Qed.
Print Assumptions C12_first_sweep.
Theorem C12_case :
  let dW := [zt [2; 2] [1; 2; 3; 4]%Z; zeros [2; 2]; zeros [2; 2]; zeros [2; 2]] in
  let W := map (fun m => madd (fac alsW m) (fac dW m)) (seq 0 4) in
  mats_ok alsV dW 2 /\ (forall q, q < 4 -> q <> 2 -> q <> 0 -> fac W q = fac alsW q) /\
  data (mttkrp alsV W 2 2) <> data (mttkrp alsV alsW 2 2).
Proof.
  split; [|split].
  - split; [reflexivity|]. intros m Hm; cbn in Hm; do 4 (destruct m as [|m]; [split; reflexivity|]); lia.
  - intros q Hq H2 H0. do 4 (destruct q as [|q]; [try contradiction; vm_compute; reflexivity|]). lia.
  - vm_compute. discriminate.
Qed.

(** ** C27.  The clock: reading number c returns [clock c]; time never goes backwards. *)
Definition clock_monotone (clock : nat -> R) : Prop := forall c, (clock c <= clock (S c))%R.
Lemma clock_mono_le clock a b : clock_monotone clock -> a <= b -> (clock a <= clock b)%R.
Proof. intros Hm H. induction H; [lra|]. specialize (Hm m). lra. Qed.
(** if the whole run stays within the time limit the driver returns, after at most maxiter+1 sweeps; it returns
    true only when the measured gradient norm is not above tol *)
Theorem C27_terminates :
  forall (LA : lapack Rnum), svd_shaped (svd LA) ->
  forall (clock : nat -> R) (rank0 same : bool) (V : tensor Rnum) (R : nat) (W G : list (tensor Rnum)) (tol tol_init limit lambda ratio : Rdefinitions.R)
    (maxiter resprint : Z) (fuel : nat) (x : io (N:=Rnum)),
  order V = 4 \/ 6 <= order V <= 9 -> order V < fuel ->
  factors_ok V W R -> mats_ok V G R -> (0 <= maxiter)%Z -> resprint <> 0%Z ->
  clock_monotone clock -> (forall c, ck x <= c -> (clock c - clock (ck x) <= limit)%R) ->
  exists ret p iter, forall wf, (maxiter + 1 <= Z.of_nat wf)%Z ->
    alsCP_PP LA clock rank0 wf fuel same V W G (tol : Rnum) tol_init limit maxiter (lambda : Rnum) ratio resprint false x = Ok (ret, p) /\
    (0 <= iter <= maxiter + 1)%Z /\ (ret = false <-> iter = (maxiter + 1)%Z) /\
    (ret = true -> (ppn p <= tol)%R) /\ factors_ok V (pW p) R.
Proof.
  intros LA Hsh clock rank0 same V R W G tol tol_init limit lambda ratio maxiter resprint fuel x Ho Hf HW HG Hm Hr Hck Hlim.
  set (J := fun (c : nat) (s : Rdefinitions.R) => ck x <= c /\ (clock (ck x) <= s)%R).
  set (p0 := mkPP W G (zmats V R) (nlit 10 : Rnum) (mkIo (N:=Rnum) (S (ck x)) (clock (ck x)) (rows x))).
  assert (Heq : forall a c : Rdefinitions.R, neqb (n:=Rnum) a c = true -> a = c).
  { intros a c. cbn. destruct (Reqb_spec a c); auto. discriminate. }
  assert (Jm : forall c s, J c s -> J (S (S (S c))) (s + (clock (S c) - clock c))%R).
  { intros c s [H1 H2]. split; [lia|]. specialize (Hck c). lra. }
  assert (Jt : forall c s, J c s -> J (S c) s /\ nltb (n:=Rnum) limit (clock c - s)%R = false).
  { intros c s [H1 H2]. split; [split; [lia|auto]|]. cbn. specialize (Hlim c H1). destruct (Rltb_spec limit (clock c - s)); auto. lra. }
  assert (Jr : false = true -> forall c s, J c s -> J (S c) (clock c)) by discriminate.
  assert (Hp : pok V R J p0).
  { unfold pok, p0. cbn [pW pG pdW pio]. split; auto. split; auto. split; [apply (@zmats_mats Rnum)|]. unfold Jx, J. cbn. split; [lia|lra]. }
  destruct (while_terminates Rnum_ring LA V R Hsh clock rank0 limit J false false Jm Jt Jr tol tol_init lambda ratio maxiter resprint same
     ltac:(lia) (Heq _ _) (Heq _ _) Hr fuel Hf Rnum_asym ltac:(right; split; [auto|lia]) (Z.to_nat (maxiter + 1)) (Z.to_nat (maxiter + 1)) 0%Z p0 Hp
     ltac:(lia) ltac:(lia) ltac:(lia)) as (iter & q & E & Hq & Hi & Hc).
  exists (negb (Z.eqb iter (maxiter + 1))), q, iter. intros wf Hwf. split; [|split; [lia|split; [|split]]].
  - destruct (while_terminates Rnum_ring LA V R Hsh clock rank0 limit J false false Jm Jt Jr tol tol_init lambda ratio maxiter resprint same
      ltac:(lia) (Heq _ _) (Heq _ _) Hr fuel Hf Rnum_asym ltac:(right; split; [auto|lia]) (Z.to_nat (maxiter + 1)) wf 0%Z p0 Hp
      ltac:(lia) ltac:(lia) ltac:(lia)) as (iter' & q' & E' & _).
    assert (Emono : forall dt sub wf1 wf2 i p r, wf1 <= wf2 -> pp_while wf1 dt sub (tol : Rnum) maxiter false i p = Ok r -> pp_while wf2 dt sub (tol : Rnum) maxiter false i p = Ok r).
    { clear. induction wf1; intros wf2 i p r Hle E; cbn [pp_while] in E;
      (destruct wf2; cbn [pp_while]; destruct (_ && _) eqn:Ec; auto; try discriminate; try lia).
      destruct (dt i p) as [[i1 p1]|]; cbn [bind] in *; auto. destruct (sub i1 p1) as [[i2 p2]|]; cbn [bind] in *; auto. apply IHwf1; auto. lia. }
    unfold alsCP_PP, wtime. cbn [fst snd]. rewrite (mk_dW_ok Rnum_ring LA V R) by auto. cbn [bind set_st ck st_time rows].
    fold p0. erewrite Emono; [|..|exact E]; [reflexivity|lia].
  - destruct (Z.eqb_spec iter (maxiter + 1)); cbn; split; intros; auto; try discriminate; contradiction.
  - intros Ht. destruct (Z.eqb_spec iter (maxiter + 1)); [discriminate|]. specialize (Hc ltac:(lia)). cbn in Hc.
    destruct (Rltb_spec tol (ppn q)); [discriminate|lra].
  - apply Hq.
Qed.
Print Assumptions C27_terminates.
(** if the limit is exceeded right from the start and the gradient norm handed in is above tol, then it never returns:
    no number of rounds of its loop is enough *)
Theorem C27_never_returns :
  forall (LA : lapack Rnum), svd_shaped (svd LA) ->
  forall (clock : nat -> R) (rank0 same : bool) (V : tensor Rnum) (R : nat) (W G : list (tensor Rnum)) (tol tol_init limit lambda ratio : Rdefinitions.R)
    (maxiter resprint : Z) (fuel : nat) (x : io (N:=Rnum)),
  order V = 4 \/ 6 <= order V <= 9 -> order V < fuel ->
  factors_ok V W R -> mats_ok V G R -> (0 <= maxiter)%Z -> resprint <> 0%Z ->
  clock_monotone clock -> (limit < clock (S (ck x)) - clock (ck x))%R -> (tol < 10)%R -> (tol < @grad_norm Rnum G)%R ->
  forall wf, alsCP_PP LA clock rank0 wf fuel same V W G (tol : Rnum) tol_init limit maxiter (lambda : Rnum) ratio resprint false x = Err LoopFuel.
Proof.
  intros LA Hsh clock rank0 same V R W G tol tol_init limit lambda ratio maxiter resprint fuel x Ho Hf HW HG Hm Hr Hck Hlim Ht1 Ht2 wf.
  set (J := fun (c : nat) (s : Rdefinitions.R) => (limit < clock c - s)%R).
  assert (Heq : forall a c : Rdefinitions.R, neqb (n:=Rnum) a c = true -> a = c).
  { intros a c. cbn. destruct (Reqb_spec a c); auto. discriminate. }
  assert (Hlt : forall a c : Rdefinitions.R, (a < c)%R -> nltb (n:=Rnum) a c = true).
  { intros a c. cbn. destruct (Rltb_spec a c); auto. }
  assert (Jm : forall c s, J c s -> J (S (S (S c))) (s + (clock (S c) - clock c))%R).
  { unfold J. intros c s H. assert (H1 := Hck (S c)). assert (H2 := Hck (S (S c))). lra. }
  assert (Jt : forall c s, J c s -> J (S c) s /\ nltb (n:=Rnum) limit (clock c - s)%R = true).
  { unfold J. intros c s H. assert (H1 := Hck c). split; [lra|auto]. }
  assert (Jr : false = true -> forall c s, J c s -> J (S c) (clock c)) by discriminate.
  unfold alsCP_PP, wtime. cbn [fst snd]. rewrite (mk_dW_ok Rnum_ring LA V R) by auto. cbn [bind set_st ck st_time rows].
  rewrite (while_diverges Rnum_ring LA V R Hsh clock rank0 limit J true false Jm Jt Jr tol tol_init lambda ratio maxiter resprint same
     ltac:(lia) (Heq _ _) (Heq _ _) Hr fuel Hf Rnum_asym); auto.
  - lia.
  - unfold pok. cbn [pW pG pdW pio]. split; auto. split; auto. split; [apply (@zmats_mats Rnum)|]. unfold Jx, J. cbn. auto.
  - apply Hlt. cbn. unfold Q2R. cbn. lra.
Qed.
Print Assumptions C27_never_returns.
(** more generally, from any state of the driver's loop on a checked iteration *)
Theorem C27_stuck_state :
  forall (LA : lapack Rnum), svd_shaped (svd LA) ->
  forall (clock : nat -> R) (rank0 same : bool) (V : tensor Rnum) (R : nat) (tol tol_init limit lambda ratio : Rdefinitions.R)
    (maxiter resprint : Z) (fuel : nat) (p : pp_state (N:=Rnum)) (iter : Z),
  order V = 4 \/ 6 <= order V <= 9 -> order V < fuel ->
  factors_ok V (pW p) R -> mats_ok V (pG p) R -> mats_ok V (pdW p) R -> resprint <> 0%Z ->
  (iter <= maxiter)%Z -> Z.rem iter resprint = 0%Z \/ iter = maxiter ->
  clock_monotone clock -> (limit < clock (ck (pio p)) - st_time (pio p))%R ->
  (tol < ppn p)%R -> (tol < @grad_norm Rnum (pG p))%R ->
  forall wf, pp_while wf (alsCP_DT_sub LA clock rank0 fuel V (tol : Rnum) tol_init limit (lambda : Rnum) maxiter resprint)
                (alsCP_PP_sub LA clock rank0 same V (tol : Rnum) tol_init limit (lambda : Rnum) ratio maxiter resprint false)
                (tol : Rnum) maxiter false iter p = Err LoopFuel.
Proof.
  intros LA Hsh clock rank0 same V R tol tol_init limit lambda ratio maxiter resprint fuel p iter Ho Hf HW HG HD Hr Hi Hc Hck Hlim Ht1 Ht2 wf.
  set (J := fun (c : nat) (s : Rdefinitions.R) => (limit < clock c - s)%R).
  assert (Heq : forall a c : Rdefinitions.R, neqb (n:=Rnum) a c = true -> a = c).
  { intros a c. cbn. destruct (Reqb_spec a c); auto. discriminate. }
  assert (Hlt : forall a c : Rdefinitions.R, (a < c)%R -> nltb (n:=Rnum) a c = true).
  { intros a c. cbn. destruct (Rltb_spec a c); auto. }
  assert (Jm : forall c s, J c s -> J (S (S (S c))) (s + (clock (S c) - clock c))%R).
  { unfold J. intros c s H. assert (H1 := Hck (S c)). assert (H2 := Hck (S (S c))). lra. }
  assert (Jt : forall c s, J c s -> J (S c) s /\ nltb (n:=Rnum) limit (clock c - s)%R = true).
  { unfold J. intros c s H. assert (H1 := Hck c). split; [lra|auto]. }
  assert (Jr : false = true -> forall c s, J c s -> J (S c) (clock c)) by discriminate.
  apply (while_diverges Rnum_ring LA V R Hsh clock rank0 limit J true false Jm Jt Jr tol tol_init lambda ratio maxiter resprint same
     ltac:(lia) (Heq _ _) (Heq _ _) Hr fuel Hf Rnum_asym); auto.
  - lia.
  - unfold pok, Jx, J. auto.
  - unfold checked. destruct Hc as [->| ->]; [reflexivity|]. rewrite Z.eqb_refl. apply orb_true_r.
Qed.
Print Assumptions C27_stuck_state.
(** both hypotheses are met: a clock that advances by one at each reading *)
Theorem C27_case :
  clock_monotone (fun c => INR (Nat.min c 100)) /\ (forall c, 0 <= c -> (INR (Nat.min c 100) - INR (Nat.min 0 100) <= 1000)%R) /\
  clock_monotone INR /\ (0 < INR 1 - INR 0)%R.
Proof.
  assert (E0 : INR 0 = 0%R) by reflexivity. assert (E1 : INR 1 = 1%R) by reflexivity.
  split; [|split; [|split]].
  - intros c. apply le_INR. lia.
  - intros c _. rewrite Nat.min_0_l, E0. assert (H := le_INR (Nat.min c 100) 100 ltac:(lia)). rewrite (INR_IZR_INZ 100) in H. cbn in H. lra.
  - intros c. rewrite S_INR. lra.
  - lra.
Qed.
(** the same program run on the integer problem: with an ample limit it returns; with limit 0 it is still running after
    50 rounds *)
Theorem C27_run :
  let run wf limit := alsCP_PP LAz (fun n => Z.of_nat n) true wf 5 false alsV alsW alsW (1%Z : Znum) (1%Z : Znum) (limit : Znum) 5%Z (0%Z : Znum) (1%Z : Znum) 1%Z false
                       (mkIo (N:=Znum) 0 0%Z []) in
  match run 6 1000%Z, run 50 0%Z with
  | Ok (r, p), Err LoopFuel => r = true /\ data (fac (pW p) 0) = [1; 0; 0; 1]%Z
  | _, _ => False end.
Proof. vm_compute. auto. Qed.

(** ** C28: benchmark mode.  The budget of maxiter+1 sweeps is used up (no recorded gradient norm was below tol, the clock
    did not fire) and yet the driver returns true *)
Theorem C28_exhausted_but_true :
  forall (LA : lapack Rnum), svd_shaped (svd LA) ->
  forall (clock : nat -> Rdefinitions.R) (rank0 same : bool) (V : tensor Rnum) (R : nat) (W G : list (tensor Rnum))
    (tol tol_init limit lambda ratio : Rdefinitions.R) (maxiter resprint : Z) (fuel wf : nat) (x : io (N:=Rnum)),
  3 <= order V <= 9 -> order V < fuel -> factors_ok V W R -> mats_ok V G R -> (0 <= maxiter < 15)%Z -> resprint <> 0%Z ->
  clock_monotone clock -> (forall c, ck x <= c -> (clock c - clock (ck x) <= limit)%R) -> (tol < 10)%R ->
  let sweep := pp_sweep (pinv_solve (svd LA) R) (lambda : Rnum) ratio V W R in
  let grads k := match k with O => G | S k' => pp_grads (pinv_solve (svd LA) R) (lambda : Rnum) ratio V W R (Nat.iter k' sweep (W, zmats V R)) end in
  (forall k, (Z.of_nat k <= maxiter)%Z -> (tol <= @grad_norm Rnum (grads k))%R) ->
  exists p, alsCP_PP LA clock rank0 (S wf) fuel same V W G (tol : Rnum) tol_init limit maxiter (lambda : Rnum) ratio resprint true x = Ok (true, p) /\
    (pW p, pdW p) = Nat.iter (Z.to_nat (maxiter + 1)) sweep (W, zmats V R).
Proof.
  intros LA Hsh clock rank0 same V R W G tol tol_init limit lambda ratio maxiter resprint fuel wf x Ho Hf HW HG Hm Hr Hck Hlim Ht sweep grads Hgr.
  set (J := fun (c : nat) (s : Rdefinitions.R) => ck x <= c /\ (clock (ck x) <= s)%R).
  assert (Heq : forall a c : Rdefinitions.R, neqb (n:=Rnum) a c = true -> a = c).
  { intros a c. cbn. destruct (Reqb_spec a c); auto. discriminate. }
  assert (Jm : forall c s, J c s -> J (S (S (S c))) (s + (clock (S c) - clock c))%R).
  { intros c s [H1 H2]. split; [lia|]. specialize (Hck c). lra. }
  assert (Jt : forall c s, J c s -> J (S c) s /\ nltb (n:=Rnum) limit (clock c - s)%R = false).
  { intros c s [H1 H2]. split; [split; [lia|auto]|]. cbn. specialize (Hlim c H1). destruct (Rltb_spec limit (clock c - s)); auto. lra. }
  assert (Jr : true = true -> forall c s, J c s -> J (S c) (clock c)).
  { intros _ c s [H1 H2]. split; [lia|]. apply clock_mono_le; auto. }
  unfold alsCP_PP, wtime. cbn [fst snd]. rewrite (mk_dW_ok Rnum_ring LA V R) by auto. cbn [bind set_st ck st_time rows].
  set (p0 := mkPP W G (zmats V R) (nlit 10 : Rnum) (mkIo (N:=Rnum) (S (ck x)) (clock (ck x)) (rows x))).
  destruct (bench_exhausts Rnum_ring LA V R Hsh clock rank0 limit J false true Jm Jt Jr tol tol_init lambda ratio maxiter resprint same
     Ho (Heq _ _) (Heq _ _) Hr fuel Hf eq_refl eq_refl wf p0) as (q & E & Hq).
  - unfold pok, p0. cbn [pW pG pdW pio]. split; auto. split; auto. split; [apply (@zmats_mats Rnum)|]. unfold Jx, J. cbn. split; [lia|lra].
  - auto.
  - cbn. destruct (Rltb_spec tol (Q2R 10)) as [|Hn]; auto. unfold Q2R in Hn. cbn in Hn. lra.
  - intros k Hk. specialize (Hgr k Hk). unfold pp_grad_at, p0. cbn [pW pG]. fold sweep. fold (grads k). change (Rltb (@grad_norm Rnum (grads k)) tol = false).
    destruct (Rltb_spec (@grad_norm Rnum (grads k)) tol) as [Hl|]; auto. apply Rle_not_lt in Hgr. contradiction.
  - match goal with |- context [bind ?w _] => replace w with (Ok ((maxiter + 2)%Z, q)) by (symmetry; exact E) end. cbn [bind]. exists q. destruct Hq as (_ & Hq & _). split; [|exact Hq].
    destruct (Z.eqb_spec (maxiter + 2) (maxiter + 1)); [lia|reflexivity].
Qed.
Print Assumptions C28_exhausted_but_true.
(** with tol <= 0 (no gradient norm can be below it) false is never returned, whatever maxiter *)
Theorem C28_never_false :
  forall (LA : lapack Rnum), svd_shaped (svd LA) ->
  forall (clock : nat -> Rdefinitions.R) (rank0 same : bool) (V : tensor Rnum) (R : nat) (W G : list (tensor Rnum))
    (tol tol_init limit lambda ratio : Rdefinitions.R) (maxiter resprint : Z) (fuel wf : nat) (x : io (N:=Rnum)) (ret : bool) (p : pp_state),
  3 <= order V <= 9 -> order V < fuel -> factors_ok V W R -> mats_ok V G R -> (0 <= maxiter)%Z -> resprint <> 0%Z ->
  clock_monotone clock -> (forall c, ck x <= c -> (clock c - clock (ck x) <= limit)%R) -> (tol <= 0)%R ->
  alsCP_PP LA clock rank0 wf fuel same V W G (tol : Rnum) tol_init limit maxiter (lambda : Rnum) ratio resprint true x = Ok (ret, p) ->
  ret = true.
Proof.
  intros LA Hsh clock rank0 same V R W G tol tol_init limit lambda ratio maxiter resprint fuel wf x ret p Ho Hf HW HG Hm Hr Hck Hlim Ht E.
  set (J := fun (c : nat) (s : Rdefinitions.R) => ck x <= c /\ (clock (ck x) <= s)%R).
  assert (Heq : forall a c : Rdefinitions.R, neqb (n:=Rnum) a c = true -> a = c).
  { intros a c. cbn. destruct (Reqb_spec a c); auto. discriminate. }
  assert (Jm : forall c s, J c s -> J (S (S (S c))) (s + (clock (S c) - clock c))%R).
  { intros c s [H1 H2]. split; [lia|]. specialize (Hck c). lra. }
  assert (Jt : forall c s, J c s -> J (S c) s /\ nltb (n:=Rnum) limit (clock c - s)%R = false).
  { intros c s [H1 H2]. split; [split; [lia|auto]|]. cbn. specialize (Hlim c H1). destruct (Rltb_spec limit (clock c - s)); auto. lra. }
  assert (Jr : true = true -> forall c s, J c s -> J (S c) (clock c)).
  { intros _ c s [H1 H2]. split; [lia|]. apply clock_mono_le; auto. }
  unfold alsCP_PP, wtime in E. cbn [fst snd] in E. rewrite (mk_dW_ok Rnum_ring LA V R) in E by auto. cbn [bind set_st ck st_time rows] in E.
  set (p0 := mkPP W G (zmats V R) (nlit 10 : Rnum) (mkIo (N:=Rnum) (S (ck x)) (clock (ck x)) (rows x))) in *.
  destruct (pp_while _ _ _ _ _ _ _ _) as [[iter q]|] eqn:Ew in E; [|discriminate]. cbn [bind] in E. injection E as <- _.
  apply (bench_not_exhausted Rnum_ring LA V R Hsh clock rank0 limit J false true Jm Jt Jr tol tol_init lambda ratio maxiter resprint same
     Ho (Heq _ _) (Heq _ _) Hr fuel Hf) in Ew; auto.
  - destruct (Z.eqb_spec iter (maxiter + 1)); [contradiction|reflexivity].
  - intros G'. change (Rltb (@grad_norm Rnum G') tol = false). destruct (Rltb_spec (@grad_norm Rnum G') tol) as [Hl|]; auto. unfold grad_norm in Hl. cbn in Hl.
    match type of Hl with (sqrt ?a < _)%R => assert (H := sqrt_pos a) end. lra.
  - unfold pok, p0. cbn [pW pG pdW pio]. split; auto. split; auto. split; [apply (@zmats_mats Rnum)|]. unfold Jx, J. cbn. split; [lia|lra].
Qed.
Print Assumptions C28_never_false.
(** conversely, with maxiter = 0, a gradient norm below tol at the first check (convergence) is reported as false *)
Theorem C28_converged_but_false :
  forall (LA : lapack Rnum), svd_shaped (svd LA) ->
  forall (clock : nat -> Rdefinitions.R) (rank0 same : bool) (V : tensor Rnum) (R : nat) (W G : list (tensor Rnum))
    (tol tol_init limit lambda ratio : Rdefinitions.R) (resprint : Z) (fuel wf : nat) (x : io (N:=Rnum)),
  3 <= order V <= 9 -> order V < fuel -> factors_ok V W R -> mats_ok V G R -> resprint <> 0%Z ->
  clock_monotone clock -> (forall c, ck x <= c -> (clock c - clock (ck x) <= limit)%R) -> (tol < 10)%R ->
  (@grad_norm Rnum G < tol)%R ->
  exists p, alsCP_PP LA clock rank0 (S wf) fuel same V W G (tol : Rnum) tol_init limit 0 (lambda : Rnum) ratio resprint true x = Ok (false, p) /\
    pW p = W /\ (ppn p < tol)%R.
Proof.
  intros LA Hsh clock rank0 same V R W G tol tol_init limit lambda ratio resprint fuel wf x Ho Hf HW HG Hr Hck Hlim Ht Hg.
  set (J := fun (c : nat) (s : Rdefinitions.R) => ck x <= c /\ (clock (ck x) <= s)%R).
  assert (Heq : forall a c : Rdefinitions.R, neqb (n:=Rnum) a c = true -> a = c).
  { intros a c. cbn. destruct (Reqb_spec a c); auto. discriminate. }
  assert (Jm : forall c s, J c s -> J (S (S (S c))) (s + (clock (S c) - clock c))%R).
  { intros c s [H1 H2]. split; [lia|]. specialize (Hck c). lra. }
  assert (Jt : forall c s, J c s -> J (S c) s /\ nltb (n:=Rnum) limit (clock c - s)%R = false).
  { intros c s [H1 H2]. split; [split; [lia|auto]|]. cbn. specialize (Hlim c H1). destruct (Rltb_spec limit (clock c - s)); auto. lra. }
  assert (Jr : true = true -> forall c s, J c s -> J (S c) (clock c)).
  { intros _ c s [H1 H2]. split; [lia|]. apply clock_mono_le; auto. }
  unfold alsCP_PP, wtime. cbn [fst snd]. rewrite (mk_dW_ok Rnum_ring LA V R) by auto. cbn [bind set_st ck st_time rows].
  set (p0 := mkPP W G (zmats V R) (nlit 10 : Rnum) (mkIo (N:=Rnum) (S (ck x)) (clock (ck x)) (rows x))).
  destruct (bench_converged Rnum_ring LA V R Hsh clock rank0 limit J false true Jm Jt Jr tol tol_init lambda ratio 0%Z resprint same
     Ho (Heq _ _) (Heq _ _) Hr fuel Hf eq_refl eq_refl Rnum_asym wf p0) as (q & E & H1 & H2 & H3).
  - unfold pok, p0. cbn [pW pG pdW pio]. split; auto. split; auto. split; [apply (@zmats_mats Rnum)|]. unfold Jx, J. cbn. split; [lia|lra].
  - auto.
  - cbn. destruct (Rltb_spec tol (Q2R 10)) as [|Hn]; auto. unfold Q2R in Hn. cbn in Hn. lra.
  - change (Rltb (@grad_norm Rnum G) tol = true). destruct (Rltb_spec (@grad_norm Rnum G) tol) as [|Hn]; [auto|contradiction].
  - match goal with |- context [bind ?w _] => replace w with (Ok (1%Z, q)) by (symmetry; exact E) end. cbn [bind]. exists q. split; [reflexivity|]. split; [exact H1|]. rewrite H2, H3. exact Hg.
Qed.
Print Assumptions C28_converged_but_false.
(** run on the integer problem: tol 0, budget 3 (maxiter 2): four readings of the clock per check, far below the limit *)
Theorem C28_case :
  let run G tol maxiter := alsCP_PP LAz (fun n => Z.of_nat n) true 3 5 false alsV alsW G (tol : Znum) (1%Z : Znum) (1000%Z : Znum) maxiter (0%Z : Znum) (1%Z : Znum) 1%Z true
                       (mkIo (N:=Znum) 0 0%Z []) in
  match run alsW 0%Z 2%Z, run alsF 1%Z 0%Z with
  | Ok (r, p), Ok (r', p') => r = true /\ data (fac (pW p) 0) = [1; 0; 0; 1]%Z /\ r' = false /\ ppn p' = 0%Z
  | _, _ => False end.
Proof. vm_compute. auto. Qed.
