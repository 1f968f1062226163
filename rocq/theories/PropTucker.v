(** C29, C30, C32, C33: the building blocks and the sweeps of the Tucker decomposition. *)
From Coq Require Import List ZArith Lia Bool Arith.
From Verif Require Import Base Num NumR Tensor Spec Spec7 MCommon MCP MTucker PBase PTensor PSum PMttkrp PMat PGrad PBuildV PTree PDT PDrivers PTtm PTucker PHosvd
  PTDT PSign PTSweep PTBad.
Import ListNotations.

(** ** a concrete order-4 problem.  The decomposition oracle of the cases returns the first k columns of the matrix, reduced modulo 5:
    any function of the right shape is allowed, and this one depends on every entry that reaches it. *)
Definition tkV : tensor Znum := @tabulate Znum [2; 2; 2; 2] (fun x =>
  (Z.of_nat (nth 0 x 0%nat) - 2 * Z.of_nat (nth 1 x 0%nat) + Z.of_nat (nth 2 x 0%nat * nth 3 x 0%nat) + 1)%Z).
Definition tkW : list (tensor Znum) := [zt [2; 1] [1; 2]%Z; zt [2; 2] [1; 3; 2; 1]%Z; zt [2; 1] [3; -1]%Z; zt [2; 2] [1; 0; 0; 1]%Z].
Definition LAt : lapack Znum :=
  @mkLapack Znum (fun G k => (@tabulate Znum [nrow G; k] (fun x => (at_ G x mod 5 - 1)%Z), zeros [k], zeros [k; ncol G])) (fun A => A) (fun B L _ _ _ => B)
           (fun A => A) (fun _ ls => zeros ls).
Lemma LAt_shaped : svd_trunc_shaped (svd LAt).
Proof.
  intros G n k [HG _] Hk. cbn. split; [|split; [reflexivity|apply tabulate_wf]].
  split; [|apply tabulate_wf]. cbn. unfold nrow. rewrite HG. reflexivity.
Qed.
Lemma tk_case_ok : tucker_ok tkV tkW [1; 2; 1; 2] /\ ranks_ok (lens tkV) [1; 2; 1; 2] /\ order tkV = 4.
Proof.
  split; [|split; [|reflexivity]].
  - split; [reflexivity|]. split; [reflexivity|]. split; [reflexivity|].
    intros m Hm; cbn in Hm; do 4 (destruct m as [|m]; [split; reflexivity|]); lia.
  - split; [reflexivity|]. intros m Hm; cbn in Hm; do 4 (destruct m as [|m]; [cbn; lia|]); lia.
Qed.
(** the square root of a number is never negative: the reals and the integers *)
Lemma sqrt_nonneg_Z : @sqrt_nonneg Znum.
Proof. intros x. cbn. apply Z.ltb_ge. apply Z.sqrt_nonneg. Qed.

Lemma filter_all {A} (l : list A) : filter (fun _ => true) l = l.
Proof. induction l; cbn; congruence. Qed.

(** ** C29.  TTMc with the argument n, and with the argument -1 (None) *)
Theorem C29_ttmc : forall (N : num), ring_laws N -> forall (Y V : tensor N) (W : list (tensor N)) (ranks : list nat) (n : nat),
  tucker_ok V W ranks -> 2 <= order V <= 10 -> n < order V ->
  exists Z, TTMc Y V W (Some n) = Ok Z /\ Z = ttmc V W (others n (order V)) /\
    lens Z = lset ranks n (nth n (lens V) 0) /\
    forall y, inb (lens Z) y -> at_ Z y =
      bigsum (filter (fun x => Nat.eqb (nth n x 0) (nth n y 0)) (all_idx (lens V)))
        (fun x => nmul (at_ V x) (bigprod (others n (order V)) (fun m => el (fac W m) (nth m x 0) (nth m y 0)))).
Proof.
  intros N RL Y V W ranks n HW Ho Hn. eexists. split; [|split; [reflexivity|]].
  - apply (TTMc_ok RL); [eapply tucker_shapes; eauto|lia|]. cbn [contracted_modes].
    intros E. assert (Hin : In (if Nat.eqb n 0 then 1 else 0) (others n (order V))); [|rewrite E in Hin; destruct Hin].
    apply filter_In. rewrite in_seq. destruct (Nat.eqb_spec n 0) as [->|H]; split; try lia; auto. destruct n; [lia|reflexivity].
  - split.
    + rewrite (Y_lens V ranks ltac:(lia) W n HW Hn). reflexivity.
    + intros y Hy. unfold ttmc. rewrite at_tabulate by auto. unfold ttmc_at. f_equal. apply filter_ext_in. intros x Hx.
      apply eq_true_iff_eq. rewrite forallb_forall. split.
      * intros H. specialize (H n). rewrite in_seq in H. specialize (H ltac:(lia)). apply orb_true_iff in H as [H|H]; auto.
        apply existsb_exists in H as (m & H1 & H2). apply Nat.eqb_eq in H2 as <-. apply filter_In in H1 as [_ H1].
        rewrite Nat.eqb_refl in H1. discriminate.
      * intros H m Hm. apply in_seq in Hm. destruct (Nat.eq_dec m n) as [->|Hmn]; [rewrite H; apply orb_true_r|].
        apply orb_true_iff. left. apply existsb_exists. exists m. split; [|apply Nat.eqb_refl]. apply filter_In. rewrite in_seq.
        split; [lia|]. apply negb_true_iff, Nat.eqb_neq. auto.
Qed.
Print Assumptions C29_ttmc.
Theorem C29_ttmc_all_modes : forall (N : num), ring_laws N -> forall (Y V : tensor N) (W : list (tensor N)) (ranks : list nat),
  tucker_ok V W ranks -> 2 <= order V <= 10 ->
  exists Z, TTMc Y V W None = Ok Z /\ Z = tucker_core V W /\ lens Z = ranks /\
    forall y, inb ranks y -> at_ Z y =
      bigsum (all_idx (lens V))
        (fun x => nmul (at_ V x) (bigprod (seq 0 (order V)) (fun m => el (fac W m) (nth m x 0) (nth m y 0)))).
Proof.
  intros N RL Y V W ranks HW Ho. exists (tucker_core V W). pose proof HW as (_ & _ & LR & HM).
  assert (HL : lens (tucker_core V W) = ranks).
  { cbn. apply nth_eq_ext with (d:=0); [rewrite ttmc_lens_length; auto|]. intros m Hm. rewrite ttmc_lens_length in Hm.
    rewrite ttmc_lens_nth by auto. replace (existsb (Nat.eqb m) (seq 0 (order V))) with true.
    2:{ symmetry. apply existsb_exists. exists m. rewrite in_seq, Nat.eqb_refl. split; auto. lia. }
    apply (mat_ncol _ _ _ (HM m Hm)). }
  split; [|split; [reflexivity|split; [exact HL|]]].
  - apply (TTMc_ok RL); [eapply tucker_shapes; eauto|lia|]. cbn [contracted_modes].
    destruct (order V) as [|o]; [lia|]. discriminate.
  - intros y Hy. unfold tucker_core, ttmc. rewrite at_tabulate by (change (inb (lens (tucker_core V W)) y); rewrite HL; auto).
    unfold ttmc_at. f_equal. transitivity (filter (fun _ => true) (all_idx (lens V))); [|apply filter_all]. apply filter_ext_in. intros x Hx.
    apply forallb_forall. intros m Hm. apply orb_true_iff. left. apply existsb_exists. exists m. rewrite Nat.eqb_refl. auto.
Qed.
Print Assumptions C29_ttmc_all_modes.
(** from order 11 on the letter k that TTMc uses for the new index is also the letter of mode 10: CTF rejects the first
    contraction unless the first contracted factor has exactly as many columns as mode 10 is long *)
Theorem C29_fails_from_order_11 : forall (N : num) (Y V : tensor N) (W : list (tensor N)) (ranks : list nat) (i : option nat),
  tucker_ok V W ranks -> 11 <= order V ->
  let first := match i with Some 0 => 1 | _ => 0 end in
  nth first ranks 0 <> nth 10 (lens V) 0 ->
  TTMc Y V W i = Err CtfError.
Proof.
  intros N Y V W ranks i HW Ho first Hne. pose proof HW as (HV & LW & LR & HM).
  assert (Hfirst : first < 10). { unfold first. destruct i as [[|n]|]; lia. }
  assert (Hstep : forall st, st = (Y, V, lens V, lbuf (order V)) -> forall sm, sm = lbuf (order V) ->
    (let '(Y, V_temp, lens_Y, sq) := st in
        sq <- bset sq first ch_k ;;
        Wi <- lget W first ;;
        lens_Y <- lput lens_Y first (ncol Wi) ;;
        Y <- assign_b (zeros lens_Y) sq [(V_temp, sm); (Wi, lit [chr first; ch_k])] ;;
        sq <- bset sq first (chr first) ;;
        Ok (Y, Y, lens_Y, sq)) = Err CtfError).
  { intros st -> sm ->. rewrite lbuf_sb. rewrite sb_bset by (rewrite letters_len; lia). cbn [bind].
    rewrite (lget_ok W first tnil) by lia. cbn [bind]. fold (fac W first). rewrite lput_ok by (fold (order V); lia). cbn [bind].
    pose proof (HM first ltac:(lia)) as HF. rewrite (mat_ncol _ _ _ HF).
    rewrite assign_b_sb2.
    - rewrite (assign_mismatch false _ _ _ _ _ ch_k (nth first ranks 0) (nth 10 (lens V) 0)); auto.
      + assert (E1 : ch_k = nth first (lset (letters chr (order V)) first ch_k) 0%Z).
        { rewrite lset_same by (rewrite letters_len; lia). auto. }
        rewrite E1 at 1.
        assert (E2 : nth first ranks 0 = nth first (lset (lens V) first (nth first ranks 0)) 0).
        { rewrite lset_same by (fold (order V); lia). auto. }
        rewrite E2 at 1. apply in_combine_nth; cbn [zeros tabulate lens]; rewrite lset_length; [rewrite letters_len|fold (order V)]; lia.
      + assert (E1 : ch_k = nth 10 (letters chr (order V)) 0%Z).
        { rewrite letters_nth by lia. reflexivity. }
        rewrite E1. apply in_combine_nth; [rewrite letters_len|fold (order V)]; lia.
    - unfold order at 1. cbn [zeros tabulate lens]. rewrite !lset_length, letters_len. reflexivity.
    - rewrite letters_len. auto.
    - apply (mat_order _ _ _ HF). }
  unfold TTMc. rewrite mk_seqV_ok. cbn [bind]. rewrite for_first by lia. unfold first in *. clear first.
  destruct i as [[|n]|].
  - cbn [is_mode Nat.eqb bind]. rewrite for_first by lia. cbn [is_mode Nat.eqb].
    specialize (Hstep _ eq_refl _ eq_refl). cbn iota beta in Hstep. rewrite Hstep. reflexivity.
  - cbn [is_mode Nat.eqb]. specialize (Hstep _ eq_refl _ eq_refl). cbn iota beta in Hstep. rewrite Hstep. reflexivity.
  - cbn [is_mode Nat.eqb]. specialize (Hstep _ eq_refl _ eq_refl). cbn iota beta in Hstep. rewrite Hstep. reflexivity.
Qed.
Print Assumptions C29_fails_from_order_11.
Theorem C29_case : match TTMc tnil tkV tkW (Some 1), TTMc tnil tkV tkW None with
  | Ok A, Ok B => lens A = [1; 2; 1; 2] /\ data A = [10; -2; 7; -5]%Z /\ lens B = [1; 2; 1; 2] /\ data B = [4; 18; -8; 9]%Z
  | _, _ => False end.
Proof. vm_compute. auto 10. Qed.

(** ** C33.  unroll_tensor_contraction: the Gram matrix of the mode-n unfolding *)
Theorem C33_unfolding_gram : forall (N : num), ring_laws N -> forall (T : tensor N) (n : nat),
  wf T -> order T <= 18 -> n < order T ->
  exists G, unroll_tensor_contraction T n = Ok G /\ lens G = [nth n (lens T) 0; nth n (lens T) 0] /\ wf G /\
    forall a b, a < nth n (lens T) 0 -> b < nth n (lens T) 0 ->
      el G a b = bigsum (all_idx (lset (lens T) n 1)) (fun x => nmul (at_ T (lset x n a)) (at_ T (lset x n b))).
Proof.
  intros N RL T n HT Ho Hn. rewrite (unroll_ok RL) by auto. eexists. split; [reflexivity|]. split; [reflexivity|].
  split; [apply tabulate_wf|]. intros a b Ha Hb. unfold el, unfold_gram. rewrite at_tabulate by (repeat constructor; auto). reflexivity.
Qed.
Print Assumptions C33_unfolding_gram.
Theorem C33_case : match unroll_tensor_contraction tkV 1 with
  | Ok G => lens G = [2; 2] /\ data G = [28; 0; 0; 4]%Z | _ => False end.
Proof. vm_compute. auto 10. Qed.

(** ** C32.  hosvd: the factor of mode i is what the decomposition returns for the Gram matrix of the mode-i unfolding, and
    the core is the tensor contracted with these factors.  What was in the factor array before does not matter. *)
Theorem C32_hosvd : forall (N : num), ring_laws N -> forall (LA : lapack N), svd_trunc_shaped (svd LA) ->
  forall (T : tensor N) (F : list (tensor N)) (ranks : list nat),
  wf T -> order T <= 18 -> length F = order T -> ranks_ok (lens T) ranks ->
  exists core W, hosvd LA T F ranks = Ok (core, W) /\
    W = map (fun i => lsv (svd LA) (unfold_gram T i) (nth i ranks 0)) (seq 0 (order T)) /\
    tucker_ok T W ranks /\ core = tucker_core T W.
Proof.
  intros N RL LA HS T F ranks HT Ho LF HR. eexists _, _. split; [apply (hosvd_ok RL); auto|].
  split; [reflexivity|]. split; [|reflexivity]. apply hosvd_tucker_ok; auto.
Qed.
Print Assumptions C32_hosvd.
Theorem C32_case : match hosvd LAt tkV (repeat tnil 4) [1; 2; 1; 2] with
  | Ok (core, W) => lens core = [1; 2; 1; 2] /\ data core = [16; 32; 8; 16]%Z /\
      W = [zt [2; 1] [-1; 1]%Z; zt [2; 2] [2; -1; -1; 3]%Z; zt [2; 1] [1; 3]%Z; zt [2; 2] [1; 3; 3; -1]%Z]
  | _ => False end.
Proof. vm_compute. auto 10. Qed.

(** ** C30.  One sweep of alsTucker_DT, and one of alsTucker.  parent, sibling: the dimension tree the driver builds;
    seq, seq_Y: the index strings the driver fills; lens_Y: the ranks. *)
Theorem C30_dimension_tree_sweep :
  forall (N : num), ring_laws N -> sqrt_nonneg (N:=N) -> forall (LA : lapack N), svd_trunc_shaped (svd LA) ->
  forall (V core Y_end : tensor N) (W : list (tensor N)) (ranks : list nat) (fuel : nat) parent sibling sq,
  order V = 2 \/ order V = 4 \/ 6 <= order V <= 18 -> order V < fuel ->
  tucker_ok V W ranks -> ranks_ok (lens V) ranks -> lens core = ranks ->
  Construct_Dimension_Tree fuel (sempty, sempty) 0 (order V - 1) = Ok (parent, sibling) ->
  mk_seqV (order V) = Ok sq -> mk_Yend V W = Ok Y_end ->
  exists core' W' Y_end',
    Tucker_DT_sweep LA fuel parent sibling V core sq (W, Y_end, ranks, sq) = Ok (core', (W', Y_end', ranks, sq)) /\
    W' = hooi_sweep (svd LA) V ranks W /\ core' = tucker_core V W'.
Proof.
  intros N RL Hsq LA HS V core Ye W ranks fuel parent sibling sq Ho Hf HW HR LC HT Hq HY.
  rewrite mk_seqV_ok in Hq. injection Hq as <-.
  destruct (tree_build (order V) fuel) as (p & s & E & Ht); [lia..|]. rewrite E in HT. injection HT as -> ->.
  destruct (DT_sweep_ok RL LA Hsq HS V ranks ltac:(lia) HR fuel parent sibling Hf Ht ltac:(lia) core W Ye LC HW) as (Y' & E' & _).
  { erewrite mk_Yend_ok in HY by (eauto; lia). injection HY as <-. reflexivity. }
  eexists _, _, Y'. split; [exact E'|]. auto.
Qed.
Print Assumptions C30_dimension_tree_sweep.
Theorem C30_plain_sweep :
  forall (N : num), ring_laws N -> sqrt_nonneg (N:=N) -> forall (LA : lapack N), svd_trunc_shaped (svd LA) ->
  forall (V core : tensor N) (W : list (tensor N)) (ranks : list nat),
  2 <= order V <= 10 -> tucker_ok V W ranks -> ranks_ok (lens V) ranks -> lens core = ranks ->
  for_ 0 (order V) (alsTucker_mode LA V core) W = Ok (hooi_sweep (svd LA) V ranks W).
Proof.
  intros N RL Hsq LA HS V core W ranks Ho HW HR LC. apply (plain_sweep_ok RL LA Hsq HS V ranks); auto; lia.
Qed.
Print Assumptions C30_plain_sweep.
(** order 3: no sweep of alsTucker_DT ever completes (the recursion of ttmc_map_DT does not end).  Any state, any tree depth. *)
Theorem C30_order_3_never_completes :
  forall (N : num) (LA : lapack N) (V core : tensor N) fuel fuel' parent sibling sq st r,
  order V = 3 -> 3 < fuel -> Construct_Dimension_Tree fuel (sempty, sempty) 0 2 = Ok (parent, sibling) ->
  Tucker_DT_sweep LA fuel' parent sibling V core sq st <> Ok r.
Proof.
  intros N LA V core fuel fuel' parent sibling sq st r Ho Hf HT.
  destruct (tree_build 3 fuel) as (p & s & E & Ht); [lia..|]. cbn [Nat.sub] in E. rewrite E in HT. injection HT as -> ->.
  apply tbad3_sweep; auto.
Qed.
Print Assumptions C30_order_3_never_completes.
(** order 5: CTF rejects the first contraction with mismatched lengths as soon as mode 3 or 4 is compressed *)
Theorem C30_order_5_fails :
  forall (N : num), ring_laws N -> forall (LA : lapack N) (V core Y_end : tensor N) (W : list (tensor N)) (ranks : list nat) fuel parent sibling sq,
  order V = 5 -> 5 < fuel -> tucker_ok V W ranks ->
  nth 3 ranks 0 <> nth 3 (lens V) 0 \/ nth 4 ranks 0 <> nth 4 (lens V) 0 ->
  Construct_Dimension_Tree fuel (sempty, sempty) 0 4 = Ok (parent, sibling) -> mk_seqV 5 = Ok sq ->
  Tucker_DT_sweep LA fuel parent sibling V core sq (W, Y_end, ranks, sq) = Err CtfError.
Proof.
  intros N RL LA V core Ye W ranks fuel parent sibling sq Ho Hf HW Hne HT Hq. rewrite mk_seqV_ok in Hq. injection Hq as <-.
  destruct (tree_build 5 fuel) as (p & s & E & Ht); [lia..|]. cbn [Nat.sub] in E. rewrite E in HT. injection HT as -> ->.
  destruct fuel as [|fuel]; [lia|]. apply (sweep5 RL LA V Ho parent sibling Ht ranks); auto.
Qed.
Print Assumptions C30_order_5_fails.
(** order 5, modes 3 and 4 not compressed: the tensor used for mode 0 is contracted in modes 1 and 2 only *)
Theorem C30_order_5_wrong_tensor :
  forall (N : num), ring_laws N -> forall (V : tensor N) (W : list (tensor N)) (ranks : list nat) fuel parent sibling sq,
  order V = 5 -> 5 < fuel -> tucker_ok V W ranks ->
  nth 3 ranks 0 = nth 3 (lens V) 0 -> nth 4 ranks 0 = nth 4 (lens V) 0 ->
  Construct_Dimension_Tree fuel (sempty, sempty) 0 4 = Ok (parent, sibling) -> mk_seqV 5 = Ok sq ->
  exists mp, dt_Y fuel parent sibling V W sq (zeros (lset ranks 0 (nth 0 (lens V) 0))) sempty sq 0 = Ok (mp, ttmc V W [1; 2], sq).
Proof.
  intros N RL V W ranks fuel parent sibling sq Ho Hf HW H3 H4 HT Hq. rewrite mk_seqV_ok in Hq. injection Hq as <-.
  destruct (tree_build 5 fuel) as (p & s & E & Ht); [lia..|]. cbn [Nat.sub] in E. rewrite E in HT. injection HT as -> ->.
  destruct fuel as [|fuel]; [lia|]. apply (Y5 RL V Ho parent sibling Ht ranks); auto.
Qed.
Print Assumptions C30_order_5_wrong_tensor.
Definition tk_run {A} (V : tensor Znum) (W : list (tensor Znum)) (f : smap str -> smap str -> buf Z -> tensor Znum -> res A) : res A :=
  '(p, s) <- Construct_Dimension_Tree 9 (sempty, sempty) 0 (order V - 1) ;;
  sq <- mk_seqV (order V) ;;
  Y <- mk_Yend V W ;;
  f p s sq Y.
Theorem C30_case :
  match tk_run tkV tkW (fun p s sq Y => Tucker_DT_sweep LAt 9 p s tkV (zeros [1; 2; 1; 2]) sq (tkW, Y, [1; 2; 1; 2], sq)) with
  | Ok (core, (W, _, _, _)) => lens core = [1; 2; 1; 2] /\ data core = [2; 4; 0; 0]%Z /\
       W = [zt [2; 1] [-1; -1]%Z; zt [2; 2] [1; 1; 1; -1]%Z; zt [2; 1] [-1; 2]%Z; zt [2; 2] [-1; 0; 0; 0]%Z] /\
       for_ 0 4 (alsTucker_mode LAt tkV core) tkW = Ok W
  | _ => False end.
Proof. vm_compute. auto 10. Qed.
(** the failing orders: tensors of all ones, one mode of length 2 *)
Definition onesT (ls : list nat) : tensor Znum := @tabulate Znum ls (fun _ => 1%Z).
Definition onesW (ls : list nat) : list (tensor Znum) := map (fun l => @tabulate Znum [l; 1] (fun _ => 1%Z)) ls.
Lemma ones_ok ls : tucker_ok (onesT ls) (onesW ls) (repeat 1 (length ls)).
Proof.
  split; [apply tabulate_wf|]. split; [unfold onesW; rewrite map_length; reflexivity|]. split; [apply repeat_length|].
  intros m Hm. change (m < length ls) in Hm. unfold fac, onesW. rewrite (nth_map_lt _ _ _ 0) by auto.
  replace (nth m (repeat 1 (length ls)) 0) with 1; [split; [reflexivity|apply tabulate_wf]|].
  symmetry. apply nth_rep. auto.
Qed.
Theorem C29_fails_case : TTMc tnil (onesT [1;1;1;1;1;1;1;1;1;1;2]) (onesW [1;1;1;1;1;1;1;1;1;1;2]) None = Err CtfError.
Proof.
  apply (C29_fails_from_order_11 Znum tnil _ _ (repeat 1 11) None).
  - apply (ones_ok [1;1;1;1;1;1;1;1;1;1;2]).
  - cbn. lia.
  - cbn. lia.
Qed.
Theorem C30_order_5_case :
  tk_run (onesT [1;1;1;2;1]) (onesW [1;1;1;2;1]) (fun p s sq Y =>
    Tucker_DT_sweep LAt 9 p s (onesT [1;1;1;2;1]) (zeros [1;1;1;1;1]) sq (onesW [1;1;1;2;1], Y, repeat 1 5, sq)) = Err CtfError.
Proof. vm_compute. reflexivity. Qed.
Theorem C30_order_3_case :
  tk_run (onesT [2;1;2]) (onesW [2;1;2]) (fun p s sq Y =>
    Tucker_DT_sweep LAt 40 p s (onesT [2;1;2]) (zeros [1;1;1]) sq (onesW [2;1;2], Y, repeat 1 3, sq)) = Err OutOfFuel.
Proof. vm_compute. reflexivity. Qed.
