(** C91: the program test_ALS never fails and never changes a shape, whatever the numbers *)
From Coq Require Import String Ascii.
From Coq Require Import List ZArith QArith Lia Bool Arith SpecFloat Permutation.
From Verif Require Import Base Num NumF Tensor Spec Spec2 Spec7 Spec15 Spec23 MCommon MCP MTucker MGen MRun MMains PBase PTensor PDrivers PPPDriver PPar PPar2 PPar3 PPar4 PPar5 PPar6
  PPar7 PPar8 PPar9 PPar10 PPar11 PPar12 PBuildV PTtm PGen PGen2 PropNan PropAny PropAny2 PropMains PropMains2.
Import ListNotations.
Local Close Scope Q_scope.
Local Open Scope string_scope.

Section C91.
Context {N : num} (LA : lapack N) (atof : string -> N) (clock : nat -> N) (rank0 same : bool) (env : environment (N := N)) (trunc : N -> nat) (fuel base tf rounds : nat).
Context (argv : list string) (x : io (N := N)) (V : tensor N).
Notation st := (test_ALS_settings atof argv).
Notation R := (Z.to_nat (s_rank st)).

(** LoopFuel: still running after [rounds] outer rounds, possible with -pp 1 and -pp 2 only *)
Theorem C91_test_ALS_cp : svd_shaped (svd LA) -> (forall k ls, lens (rng env k ls) = ls /\ wf (rng env k ls)) ->
  String.get 0 (s_model st) = Some "C"%char -> run_tensor env fuel st = Ok V -> wf V -> cp_orders (s_pp st) (order V) -> order V < tf ->
  s_resprint st <> 0%Z -> (s_pp st = 2%Z -> trunc (nmul (nlit (Z.of_nat (order V) # 1)) (s_percentage st)) <= order V) ->
  let run := test_ALS atof LA clock rank0 env trunc fuel base tf rounds same argv x in
  (s_pp st <> 0%Z /\ run = Err LoopFuel) \/
  exists ret W G y, run = Ok (CP_done ret W G y) /\ factors_ok V W R /\ mats_ok V G R.
Proof.
  intros Hsh Hrng HC EV HV Ho Htf Hrp Hsz run. subst run. unfold test_ALS, test_ALS_main. rewrite EV. cbn [bind]. rewrite (head_char _ _ HC). cbn [Ascii.eqb Bool.eqb].
  assert (HW : factors_ok V (start_W env base R V) R) by (split; [exact HV|apply (start_mats env V R (fun i => base + 2 * i) Hrng)]).
  assert (HG : mats_ok V (start_G env base R V) R) by (apply (start_mats env V R (fun i => base + 2 * i + 1) Hrng)).
  assert (HF : mats_ok V (start_F R V) R) by apply PPPDriver.zmats_mats.
  destruct (test_ALS_in_range atof argv) as (Hpp & _ & Hmax & _). unfold cp_orders in Ho.
  destruct (Z.eqb_spec (s_pp st) 0) as [E0|E0]; [|destruct (Z.eqb_spec (s_pp st) 1) as [E1|E1]; [|destruct (Z.eqb_spec (s_pp st) 2) as [E2|E2]; [|lia]]].
  - right. destruct (C89_dimension_tree LA Hsh clock rank0 (s_timelimit st) V R (start_W env base R V) (start_G env base R V) (start_F R V)
      (nmul (s_tol st) (norm2 V)) (s_maxiter st) (s_lambda st) (s_resprint st) false tf x) as (ret & s & k & E & H1 & H2 & _); auto.
    rewrite E. cbn [bind]. do 4 eexists. split; [reflexivity|]. auto.
  - destruct (C89_pairwise_perturbation LA Hsh clock rank0 (s_timelimit st) V R rounds tf same (start_W env base R V) (start_G env base R V)
      (nmul (s_tol st) (norm2 V)) (s_pp_res_tol st) (s_maxiter st) (s_lambda st) (s_magni st) (s_resprint st) false x) as [E|(ret & p & E & H1 & H2 & _)]; auto.
    + left. split; auto. rewrite E. reflexivity.
    + right. rewrite E. cbn [bind]. do 4 eexists. split; [reflexivity|]. auto.
  - destruct (C89_partial_update LA Hsh clock rank0 (s_timelimit st) V R rounds tf same (start_W env base R V) (start_G env base R V)
      (nmul (s_tol st) (norm2 V)) (s_pp_res_tol st) (s_maxiter st) (s_lambda st) (s_magni st) (trunc (nmul (nlit (Z.of_nat (order V) # 1)) (s_percentage st))) (s_resprint st) false x)
      as [E|(ret & p & E & H1 & H2 & _)]; auto.
    + left. split; auto. rewrite E. reflexivity.
    + right. rewrite E. cbn [bind]. do 4 eexists. split; [reflexivity|]. auto.
Qed.

Theorem C91_test_ALS_tucker : svd_trunc_shaped (svd LA) ->
  String.get 0 (s_model st) = Some "T"%char -> run_tensor env fuel st = Ok V -> wf V -> tucker_orders (s_pp st) (order V) -> 2 <= order V < tf ->
  s_resprint st <> 0%Z -> let ranks := program_ranks (s_tensor st) (order V) R in ranks_ok (lens V) ranks ->
  let run := test_ALS atof LA clock rank0 env trunc fuel base tf rounds same argv x in
  (s_pp st = 1%Z /\ run = Err LoopFuel) \/
  exists ret core W y, run = Ok (Tucker_done ret core W y) /\ tucker_ok V W ranks /\ lens core = ranks.
Proof.
  intros Hsvd HT EV HV Ho Htf Hrp ranks HR run. subst run. unfold test_ALS, test_ALS_main. rewrite EV. cbn [bind]. rewrite (head_char _ _ HT). cbn [Ascii.eqb Bool.eqb].
  destruct (test_ALS_in_range atof argv) as (Hpp & _ & Hmax & _).
  assert (H18 : 2 <= order V <= 18). { unfold tucker_orders in Ho. destruct (s_pp st) as [|[]|]; lia. }
  rewrite (tucker_ranks_ok env fuel st V _ EV) by (try lia; apply HR). cbn [bind]. fold ranks.
  destruct (C90_hosvd LA Hsvd V ranks HR (start_W env base R V) HV ltac:(lia)) as (core & W & E & HW & HC & _).
  { unfold start_W. rewrite map_length, seq_length. reflexivity. }
  rewrite E. cbn [bind]. unfold tucker_orders in Ho.
  destruct (Z.eqb_spec (s_pp st) 0) as [E0|E0]; [|destruct (Z.eqb_spec (s_pp st) 1) as [E1|E1]].
  - right. rewrite E0 in Ho.
    destruct (C90_dimension_tree LA Hsvd clock rank0 (s_timelimit st) V ranks HR tf core W (nmul (s_tol st) (norm2 V)) (s_maxiter st) (s_resprint st) false x)
      as (ret & s & k & Es & H1 & H2 & _); auto; try lia.
    rewrite Es. cbn [bind]. do 4 eexists. split; [reflexivity|]. auto.
  - rewrite E1 in Ho.
    destruct (C90_pairwise_perturbation LA Hsvd clock rank0 (s_timelimit st) V ranks HR rounds tf core W (nmul (s_tol st) (norm2 V)) (s_pp_res_tol st) (s_maxiter st) (s_resprint st) false x)
      as [Es|(ret & p & Es & H1 & H2 & _)]; auto; try lia.
    + left. split; auto. rewrite Es. reflexivity.
    + right. rewrite Es. cbn [bind]. do 4 eexists. split; [reflexivity|]. auto.
  - right. do 4 eexists. split; [reflexivity|]. auto.
Qed.
End C91.

(** ** the whole command line.  The tensors that the options -tensor p, c, r of valid sizes build *)
Definition made_shape {N : num} (st : settings (N := N)) : list nat :=
  let s := Z.to_nat (s_size st) in
  if prefix "p" (s_tensor st) && negb (prefix "p2" (s_tensor st)) then repeat (s * s) (Z.to_nat (s_dim st) / 2) else repeat s (Z.to_nat (s_dim st)).
Definition makeable {N : num} (st : settings (N := N)) : Prop :=
  match String.get 0 (s_tensor st) with
  | Some "p" => (1 <= s_size st)%Z /\ exists d, s_dim st = Z.of_nat (2 * d) /\ 2 <= d <= 15
  | Some "r" => prefix "r2" (s_tensor st) = true \/ (2 <= s_dim st <= 19)%Z
  | Some "c" => (2 <= s_dim st <= 19)%Z
  | _ => False
  end%char.
Lemma prefix1 c t : prefix (String c "") t = match String.get 0 t with Some a => Ascii.eqb a c | None => false end.
Proof. destruct t as [|a t]; cbn; [reflexivity|]. destruct (ascii_dec c a) as [->|H]; [rewrite Ascii.eqb_refl; destruct t; reflexivity|]. destruct (Ascii.eqb_spec a c); [congruence|reflexivity]. Qed.
Lemma prefix2 a c t : prefix (String a (String c "")) t = match String.get 0 t with Some b => Ascii.eqb b a && second_is c t | None => false end.
Proof.
  destruct t as [|x [|b t]]; unfold second_is, char_at; cbn [prefix String.get String.length Nat.ltb Nat.leb andb]; [reflexivity| |].
  - rewrite andb_false_r. destruct (ascii_dec a x); reflexivity.
  - destruct (ascii_dec a x) as [<-|Ha]; [rewrite Ascii.eqb_refl|destruct (Ascii.eqb_spec x a); [congruence|reflexivity]].
    cbn [andb]. destruct (ascii_dec c b) as [<-|Hb]; [rewrite Ascii.eqb_refl; destruct t; reflexivity|destruct (Ascii.eqb_spec b c); [congruence|reflexivity]].
Qed.

Section T91.
Context {N : num} (env : environment (N := N)) (fuel : nat).
Hypothesis Hrng : forall k ls, lens (rng env k ls) = ls /\ wf (rng env k ls).
Hypothesis Hdist : forall T, Permutation (dist env T) (all_pairs T).
(** LoopFuel: Gen_collinearity is still drawing vectors after [fuel] attempts *)
Theorem C91_tensor : forall st : settings (N := N), makeable st ->
  (prefix "c" (s_tensor st) = true /\ run_tensor env fuel st = Err LoopFuel) \/
  exists V, run_tensor env fuel st = Ok V /\ lens V = made_shape st /\ wf V.
Proof.
  intros st. unfold makeable, made_shape. rewrite !prefix1, !prefix2. destruct (String.get 0 (s_tensor st)) as [c0|] eqn:E0; [|contradiction].
  unfold run_tensor. rewrite (head_char _ _ E0). cbv zeta. set (t := s_tensor st) in *. set (s := Z.to_nat (s_size st)).
  destruct (Ascii.eqb_spec c0 "p") as [->|Np]; [|destruct (Ascii.eqb_spec c0 "c") as [->|Nc]; [|destruct (Ascii.eqb_spec c0 "r") as [->|Nr]]].
  - intros (Hs & d & Hd & Hr). cbn [Ascii.eqb Bool.eqb andb negb]. rewrite Hd, Nat2Z.id.
    destruct (laplacian_any (N:=N) (zeros (repeat s (2 * d))) d s) as (T & ET & LT & WT); try (unfold s; lia); [apply zeros_wf|reflexivity|].
    unfold cube. rewrite ET. destruct (second_is "2" t); cbn [bind negb]; right; [eauto|].
    replace (2 * d / 2) with d by (rewrite Nat.mul_comm, Nat.div_mul; lia).
    assert (Hsz : size (lens T) = size (repeat (s * s) d)).
    { rewrite LT. clear. induction d; [reflexivity|]. replace (2 * S d) with (S (S (2 * d))) by lia. cbn [repeat]. unfold size in *. cbn [fold_right]. rewrite IHd. lia. }
    rewrite (fold_ok T _ (dist env T)); [|exact WT|apply zeros_wf|exact Hsz|apply Hdist]. cbn [lens zeros tabulate].
    eexists. split; [reflexivity|]. split; [reflexivity|]. unfold wf in *. cbn [lens data]. rewrite WT. exact Hsz.
  - intros Hd. cbn [Ascii.eqb Bool.eqb andb negb]. unfold run_tensor_c, cube. set (dim := Z.to_nat (s_dim st)) in *. assert (H19 : 2 <= dim <= 19) by (unfold dim; lia).
    rewrite (bset_ok (newbuf (dim + 1))) by (rewrite newbuf_length; lia). cbn [bind].
    destruct (chars_fill dim (lset (newbuf (dim + 1)) dim (Some 0%Z))) as (ba & Ea & La & Ta); [lia|rewrite lset_length, newbuf_length; lia|]. rewrite Ea. cbn [bind].
    assert (HL : List.length (repeat s dim) = dim) by apply repeat_length.
    destruct (Gen_any (fun k n => rng env k [n]) (repeat s dim) dim (Z.to_nat (s_rank st)) (s_colmin st) (s_colmax st) (fun k n => Hrng k [n]) HL fuel H19) as [(X & E & LX & WX)|E];
      rewrite E; cbn [bind]; [right|left; auto].
    unfold tix, order. rewrite LX, HL, Ta by lia. cbn [bind]. destruct (Hrng 0 (repeat s dim)) as (LZ & WZ). set (Z0 := rng env 0 (repeat s dim)) in *.
    assert (HU := scale_term Unum_ring (fun _ n => zeros [n]) (repeat s dim) dim 0 (fun _ n => conj eq_refl (zeros_wf [n])) HL (cp Z0) (cp Z0) (tt : Unum) (proj2 H19) LZ LZ (proj2 (proj2 (cp_sim Z0 WZ)))).
    match goal with |- context [assign ?p1 Z0 ?p3 ?p4] => match type of HU with ?a = _ => assert (HS : osim tsw (assign p1 Z0 p3 p4) a) end end.
    { apply assign_sim; [exact (proj1 (cp_sim Z0 WZ))|]. repeat (apply Forall2_cons || apply Forall2_nil); unfold termsim; cbn [facs]; repeat (apply Forall2_cons || apply Forall2_nil); split; reflexivity. }
    destruct (osim_run _ _ _ _ HS HU) as (Z1 & EZ & HZ1 & HZ2 & _). rewrite EZ. cbn [bind]. clear HS HU.
    assert (LZ1 : lens Z1 = repeat s dim) by exact HZ1.
    assert (HU := acc_term Unum_ring (fun _ n => zeros [n]) (repeat s dim) dim 0 (fun _ n => conj eq_refl (zeros_wf [n])) HL (cp X) (cp Z1) (n1 : Unum) (proj2 H19) LX LZ1 (proj2 (proj2 (cp_sim X WX))) (proj2 (proj2 (cp_sim Z1 HZ2)))).
    match goal with |- context [assign ?p1 X ?p3 ?p4] => match type of HU with ?a = _ => assert (HS : osim tsw (assign p1 X p3 p4) a) end end.
    { apply assign_sim; [exact (proj1 (cp_sim X WX))|]. repeat (apply Forall2_cons || apply Forall2_nil); unfold termsim; cbn [facs]; repeat (apply Forall2_cons || apply Forall2_nil); split; reflexivity. }
    destruct (osim_run _ _ _ _ HS HU) as (Z2 & EZ2 & HY1 & HY2 & _). rewrite EZ2. exists Z2. split; [reflexivity|]. split; [exact HY1|exact HY2].
  - cbn [Ascii.eqb Bool.eqb andb negb]. unfold cube. set (dim := Z.to_nat (s_dim st)) in *. intros Hd. right.
    destruct (second_is "2" t); [eexists; split; [reflexivity|apply Hrng]|]. destruct Hd as [[=]|Hd]. assert (H19 : 2 <= dim <= 19) by (unfold dim; lia).
    set (Rk := Z.to_nat (s_rank st)). set (W := map (fun i => rng env i [s; Rk]) (seq 0 dim)).
    assert (HW : forall m, m < dim -> is_mat (nth m W tnil) s Rk).
    { intros m Hm. unfold W. rewrite (nth_map_lt _ _ _ 0) by (rewrite seq_length; auto). apply Hrng. }
    assert (LW : List.length W = dim) by (unfold W; rewrite map_length, seq_length; reflexivity).
    destruct (osim_run _ _ _ (cp_full (map cp W) Rk) (build_V_sim W (map cp W) dim (cps_sim W ltac:(intros A HA; destruct (In_nth _ _ tnil HA) as (m & Hm & <-); apply HW; lia))))
      as (V & E & HV1 & HV2 & _).
    { apply (build_V_ok Unum_ring); try lia; [rewrite map_length; exact LW|]. intros m Hm. exists s. unfold fac. rewrite (nth_map_lt _ _ _ tnil) by lia. destruct (HW m Hm) as [H1 H2].
      split; [exact H1|]. apply (cp_sim _ H2). }
    exists V. split; [exact E|]. split; [|exact HV2]. rewrite HV1. cbn [cp_full lens tabulate]. apply nth_eq_ext with (d := 0); rewrite !map_length; [rewrite repeat_length; exact LW|].
    intros m Hm. rewrite (nth_map_lt _ _ _ tnil) by (rewrite map_length; auto). rewrite (nth_map_lt _ _ _ tnil) by auto. unfold nrow. cbn [cp lens].
    rewrite (proj1 (HW m ltac:(lia))). rewrite (nth_indep (repeat s dim) 0 s) by (rewrite repeat_length; lia). rewrite nth_repeat. reflexivity.
  - intros H. exfalso. destruct c0 as [[] [] [] [] [] [] [] []]; auto.
Qed.

Context (LA : lapack N) (atof : string -> N) (clock : nat -> N) (rank0 same : bool) (trunc : N -> nat) (base tf rounds : nat) (argv : list string) (x : io (N := N)).
Notation st := (test_ALS_settings atof argv).
Notation R := (Z.to_nat (s_rank st)).
Notation ls := (made_shape (test_ALS_settings atof argv)).
(** LoopFuel: a loop of the program whose length depends on the numbers (drawing collinear vectors, the outer loop of -pp 1 and 2) is still running *)
Theorem C91_command_line_cp : svd_shaped (svd LA) -> String.get 0 (s_model st) = Some "C"%char -> makeable st ->
  cp_orders (s_pp st) (List.length ls) -> List.length ls < tf -> s_resprint st <> 0%Z ->
  (s_pp st = 2%Z -> trunc (nmul (nlit (Z.of_nat (List.length ls) # 1)) (s_percentage st)) <= List.length ls) ->
  let run := test_ALS atof LA clock rank0 env trunc fuel base tf rounds same argv x in
  ((prefix "c" (s_tensor st) = true \/ s_pp st <> 0%Z) /\ run = Err LoopFuel) \/
  exists ret W G y, run = Ok (CP_done ret W G y) /\ List.length W = List.length ls /\ List.length G = List.length ls /\
    forall m, m < List.length ls -> is_mat (fac W m) (nth m ls 0) R /\ is_mat (fac G m) (nth m ls 0) R.
Proof.
  intros Hsh HC Hm Ho Htf Hrp Hsz run. destruct (C91_tensor st Hm) as [[Ec E]|(V & E & HL & HV)].
  - left. split; [left; exact Ec|]. subst run. unfold test_ALS, test_ALS_main. rewrite E. reflexivity.
  - unfold order in *. rewrite <- HL in *. destruct (C91_test_ALS_cp LA atof clock rank0 same env trunc fuel base tf rounds argv x V Hsh Hrng HC E HV Ho Htf Hrp Hsz) as [[Ep Er]|(ret & W & G & y & Er & (_ & H1 & H2) & H3 & H4)]; [left; split; [right; exact Ep|exact Er]|right].
    exists ret, W, G, y. split; [exact Er|]. split; [exact H1|]. split; [exact H3|]. intros m Hmm. split; [apply H2|apply H4]; exact Hmm.
Qed.
Theorem C91_command_line_tucker : svd_trunc_shaped (svd LA) -> String.get 0 (s_model st) = Some "T"%char -> makeable st ->
  tucker_orders (s_pp st) (List.length ls) -> 2 <= List.length ls < tf -> s_resprint st <> 0%Z -> 1 <= R ->
  let run := test_ALS atof LA clock rank0 env trunc fuel base tf rounds same argv x in
  ((prefix "c" (s_tensor st) = true \/ s_pp st = 1%Z) /\ run = Err LoopFuel) \/
  exists ret core W y, run = Ok (Tucker_done ret core W y) /\ List.length W = List.length ls /\
    (forall m, m < List.length ls -> is_mat (fac W m) (nth m ls 0) R) /\ lens core = repeat R (List.length ls).
Proof.
  intros Hsh HT Hm Ho Htf Hrp HR run. destruct (C91_tensor st Hm) as [[Ec E]|(V & E & HL & HV)].
  - left. split; [left; exact Ec|]. subst run. unfold test_ALS, test_ALS_main. rewrite E. reflexivity.
  - unfold order in *. 
    assert (Epr : program_ranks (s_tensor st) (List.length ls) R = repeat R (List.length ls)).
    { unfold program_ranks. rewrite !prefix2. unfold makeable in Hm. destruct (String.get 0 (s_tensor st)) as [c0|]; [|contradiction]. destruct (Ascii.eqb_spec c0 "o") as [->|]; [contradiction|reflexivity]. }
    assert (HRs : ranks_ok (lens V) (program_ranks (s_tensor st) (List.length (lens V)) R)).
    { rewrite HL, Epr. split; [apply repeat_length|]. intros m Hmm. rewrite (nth_indep _ 0 R) by (rewrite repeat_length; exact Hmm). rewrite nth_repeat. split; [exact HR|].
      destruct (test_ALS_in_range atof argv) as (_ & _ & _ & Hs & Hr & _). revert Hmm. clear - Hs Hr HR. unfold made_shape. set (a := Z.to_nat (s_size st)). assert (Ha : R <= a) by (unfold a; lia).
      destruct (_ && _); rewrite repeat_length; intros Hmm.
      - rewrite (nth_indep _ 0 (a * a)) by (rewrite repeat_length; exact Hmm). rewrite nth_repeat. nia.
      - rewrite (nth_indep _ 0 a) by (rewrite repeat_length; exact Hmm). rewrite nth_repeat. exact Ha. }
    rewrite <- HL in Ho, Htf |- *.
    destruct (C91_test_ALS_tucker LA atof clock rank0 same env trunc fuel base tf rounds argv x V Hsh HT E HV Ho Htf Hrp HRs) as [[Ep Er]|(ret & core & W & y & Er & (_ & H1 & _ & H2) & H3)]; [left; split; [right; exact Ep|exact Er]|right].
    unfold order in *. rewrite HL, Epr in *. exists ret, core, W, y. split; [exact Er|]. split; [exact H1|]. split; [|exact H3].
    intros m Hmm. destruct (H2 m Hmm) as [H4 H5]. split; [|exact H5]. rewrite H4. rewrite (nth_indep (repeat R _) 0 R) by (rewrite repeat_length; exact Hmm). rewrite nth_repeat. reflexivity.
Qed.
End T91.

(** concrete command lines, whatever the number type; then binary64 with a random generator that returns NaN *)
Definition cc_cp : list string := ["./test_ALS"; "-tensor"; "p"; "-dim"; "8"; "-size"; "3"; "-rank"; "2"; "-pp"; "1"; "-resprint"; "2"].
Definition cc_tk : list string := ["./test_ALS"; "-tensor"; "r"; "-dim"; "6"; "-size"; "3"; "-rank"; "2"; "-model"; "T"; "-pp"; "0"].
Lemma cc_cp_ok {N : num} (atof : string -> N) : let st := test_ALS_settings atof cc_cp in
  String.get 0 (s_model st) = Some "C"%char /\ makeable st /\ made_shape st = repeat 9 4 /\ cp_orders (s_pp st) 4 /\ s_pp st = 1%Z /\ s_resprint st = 2%Z /\ Z.to_nat (s_rank st) = 2.
Proof.
  cbv zeta. split; [reflexivity|]. split; [|split; [reflexivity|split; [left; reflexivity|split; [reflexivity|split; reflexivity]]]].
  split; [discriminate|]. exists 4. split; [reflexivity|lia].
Qed.
Lemma cc_tk_ok {N : num} (atof : string -> N) : let st := test_ALS_settings atof cc_tk in
  String.get 0 (s_model st) = Some "T"%char /\ makeable st /\ made_shape st = repeat 3 6 /\ tucker_orders (s_pp st) 6 /\ s_pp st = 0%Z /\ s_resprint st = 10%Z /\ Z.to_nat (s_rank st) = 2.
Proof.
  cbv zeta. split; [reflexivity|]. split; [|split; [reflexivity|split; [right; right; lia|split; [reflexivity|split; reflexivity]]]].
  right. split; discriminate.
Qed.
Definition cc_env : environment (N := cn_N) := @mkEnv cn_N (fun _ ls => @tabulate cn_N ls (fun _ => S754_nan)) (@all_pairs cn_N) (fun _ ls => @zeros cn_N ls).
Theorem C91_case : svd_shaped (svd ca_LA) /\ svd_trunc_shaped (svd cb_LA) /\
  (forall k ls, lens (rng cc_env k ls) = ls /\ wf (rng cc_env k ls)) /\ (forall T, Permutation (dist cc_env T) (all_pairs T)) /\
  (forall atof trunc x, let run := test_ALS (N := cn_N) atof ca_LA cn_clk true cc_env trunc 5 9 10 6 true cc_cp x in
     run = Err LoopFuel \/ exists ret W G y, run = Ok (CP_done ret W G y) /\ List.length W = 4 /\ forall m, m < 4 -> is_mat (fac W m) 9 2) /\
  forall atof trunc x, exists ret core W y, test_ALS (N := cn_N) atof cb_LA cn_clk true cc_env trunc 5 9 10 6 true cc_tk x = Ok (Tucker_done ret core W y) /\
     List.length W = 6 /\ (forall m, m < 6 -> is_mat (fac W m) 3 2) /\ lens core = repeat 2 6.
Proof.
  assert (HA : svd_shaped (svd ca_LA)) by apply C89_case. assert (HB : svd_trunc_shaped (svd cb_LA)) by apply C90_case.
  assert (HR : forall k ls, lens (rng cc_env k ls) = ls /\ wf (rng cc_env k ls)) by (intros k ls; split; [reflexivity|apply (@tabulate_wf cn_N)]).
  assert (HD : forall T, Permutation (dist cc_env T) (all_pairs T)) by (intros T; apply Permutation_refl).
  split; [exact HA|]. split; [exact HB|]. split; [exact HR|]. split; [exact HD|]. split.
  - intros atof trunc x. destruct (cc_cp_ok (N:=cn_N) atof) as (H1 & H2 & H3 & H4 & H5 & H6 & H7).
    destruct (C91_command_line_cp cc_env 5 HR HD ca_LA atof cn_clk true true trunc 9 10 6 cc_cp x HA H1 H2) as [[_ E]|(ret & W & G & y & E & L1 & L2 & HW)].
    + rewrite H3. exact H4.
    + rewrite H3. cbn. lia.
    + rewrite H6. discriminate.
    + rewrite H5. discriminate.
    + left. exact E.
    + right. exists ret, W, G, y. split; [exact E|]. rewrite H3, repeat_length in *. split; [exact L1|]. intros m Hm. destruct (HW m Hm) as [K _].
      rewrite (nth_indep (repeat 9 4) 0 9) in K by (rewrite repeat_length; exact Hm). rewrite nth_repeat, H7 in K. exact K.
  - intros atof trunc x. destruct (cc_tk_ok (N:=cn_N) atof) as (H1 & H2 & H3 & H4 & H5 & H6 & H7).
    destruct (C91_command_line_tucker cc_env 5 HR HD cb_LA atof cn_clk true true trunc 9 10 6 cc_tk x HB H1 H2) as [[[Ec|Ep] _]|(ret & core & W & y & E & L1 & HW & LC)].
    + rewrite H3. exact H4.
    + rewrite H3. cbn. lia.
    + rewrite H6. discriminate.
    + rewrite H7. lia.
    + discriminate Ec.
    + rewrite H5 in Ep. discriminate Ep.
    + exists ret, core, W, y. split; [exact E|]. rewrite H3, repeat_length in *. split; [exact L1|]. split; [|rewrite LC, H7; reflexivity].
      intros m Hm. assert (K := HW m Hm). rewrite (nth_indep (repeat 3 6) 0 3) in K by (rewrite repeat_length; exact Hm). rewrite nth_repeat, H7 in K. exact K.
Qed.
