(** Shapes do not depend on numbers (PPar.v), continued: the functions of als_Tucker.cxx that touch tensors. *)
From Coq Require Import List ZArith QArith Lia Bool Arith.
From Verif Require Import Base Num Tensor Spec MCommon MCP MTucker PBase PTensor PPar PPar2.
Import ListNotations.
Local Close Scope Q_scope.

Ltac pl := cbv beta zeta;
  lazymatch goal with
  | |- osim _ (bind (lput _ _ _) _) _ =>
      first [ (let a := fresh "a" in let E := fresh "E" in apply osim_bind_same; intros a E) | pleaf ]
  | _ => pleaf
  end.
Section S.
Context {N1 N2 : num}.
Notation T1 := (tensor N1).
Notation T2 := (tensor N2).

Lemma assign_lens {N : num} acc (C D : tensor N) s ts : assign acc C s ts = Ok D -> lens D = lens C /\ wf D.
Proof. unfold assign. destruct (_ && _); [|discriminate]. intros [= <-]. split; [reflexivity|apply tabulate_wf]. Qed.
Lemma assign_b_lens {N : num} (C D : tensor N) s ts : assign_b C s ts = Ok D -> lens D = lens C /\ wf D.
Proof. unfold assign_b. intros E. apply bind_ok in E as (? & _ & E). apply bind_ok in E as (? & _ & E). apply (assign_lens _ _ _ _ _ E). Qed.

Lemma unroll_sim (T : T1) (T' : T2) i : tsw T T' -> osim tsw (unroll_tensor_contraction T i) (unroll_tensor_contraction T' i).
Proof.
  intros H. unfold unroll_tensor_contraction. rewrite (tsw_order _ _ H), (tsw_lens _ _ H). apply osim_bind_same. intros [arg arg2] _.
  repeat pl.
Qed.
(** the first argument of TTMc is only assigned to *)
Lemma TTMc_sim (Y : T1) (Y' : T2) (V : T1) (V' : T2) W W' i : tsw V V' -> lsim W W' ->
  osim (fun A B => (A = Y /\ B = Y') \/ tsw A B) (TTMc Y V W i) (TTMc Y' V' W' i).
Proof.
  intros HV HW. unfold TTMc. rewrite (tsw_order _ _ HV), (tsw_lens _ _ HV). repeat pl.
  apply (osim_bind (prodR (prodR (prodR (fun A B => (A = Y /\ B = Y') \/ tsw A B) tsw) eq) eq)).
  - apply for_sim; [|split; [split; [split|]|]; cbn [fst snd]; auto]. intros j [[[Ya Va] la] sa] [[[Yb Vb] lb] sb] _ [[[HYa HVa] Hl] Hs]; cbn [fst snd] in *; subst lb sb.
    destruct (is_mode i j); [apply osim_ok; split; [split; [split|]|]; auto|]. repeat pl. apply osim_ok; split; [split; [split|]|]; cbn [fst snd]; auto.
  - intros [[[Ya Va] la] sa] [[[Yb Vb] lb] sb] [[[HYa HVa] Hl] Hs]; cbn [fst snd] in *. apply osim_ok; auto.
Qed.
Definition hasm (args : str) (m : smap T1) (m' : smap T2) : Prop := msim m m' /\ m' args <> None.
Lemma hasm_tget args m m' : hasm args m m' -> tsw (tget m args) (tget m' args).
Proof. intros [H Hn]. specialize (H args). unfold tget. destruct (m args), (m' args); try contradiction; auto. Qed.
Lemma hasm_cached par m m' : msim m m' -> forall x y, osim (hasm par) x y ->
  osim (hasm par) (match m par with Some _ => Ok m | None => x end) (match m' par with Some _ => Ok m' | None => y end).
Proof.
  intros Hm x y Hxy. assert (Hp := Hm par). destruct (m par) eqn:E1, (m' par) eqn:E2; try contradiction; auto.
  apply osim_ok. split; auto. rewrite E2. discriminate.
Qed.
Lemma tmap_DT_sim fuel parent sibling (V : T1) (V' : T2) W W' : tsw V V' -> lsim W W' -> forall mp mp' args, msim mp mp' ->
  osim (hasm args) (ttmc_map_DT fuel mp parent sibling V W args) (ttmc_map_DT fuel mp' parent sibling V' W' args).
Proof.
  intros HV HW. induction fuel as [|fuel IH]; intros mp mp' args Hm; cbn [ttmc_map_DT]; [apply osim_err|].
  apply hasm_cached; auto. rewrite (tsw_order _ _ HV). pl. pl.
  apply (osim_bind (prodR msim tsw)).
  { destruct (_ || _); [apply osim_ok; split; auto|]. apply (osim_bind (hasm (sget parent args))).
    - apply hasm_cached; auto.
    - intros m m' Hmm. apply osim_ok. split; [apply Hmm|]. apply hasm_tget; auto. }
  intros [m A] [m' A'] [Hmm HA]; cbn [fst snd] in *. cbv zeta. rewrite (tsw_lens _ _ HA).
  apply (osim_bind (prodR (prodR tsw eq) eq)).
  - apply for_sim; [|split; [split|]; auto]. intros j [[Fa la] sa] [[Fb lb] sb] _ [[HF Hl] Hs]; cbn [fst snd] in *; subst lb sb.
    repeat pl. apply osim_ok; split; [split|]; auto.
  - intros [[Fa la] sa] [[Fb lb] sb] [[HF Hl] Hs]; cbn [fst snd] in *. apply osim_ok. split; [apply msim_put; auto|].
    unfold sput. rewrite str_eqb_refl. discriminate.
Qed.
Lemma dt_Y_sim fuel parent sibling (V : T1) (V' : T2) W W' sq Y Y' mp mp' seq_Y i : tsw V V' -> lsim W W' -> tsw Y Y' -> msim mp mp' ->
  osim (prodR (prodR msim tsw) eq) (dt_Y fuel parent sibling V W sq Y mp seq_Y i) (dt_Y fuel parent sibling V' W' sq Y' mp' seq_Y i).
Proof.
  intros HV HW HY Hm. unfold dt_Y. cbv zeta. apply (osim_bind (hasm (sget parent [chr i]))).
  { apply hasm_cached; auto. apply tmap_DT_sim; auto. }
  intros m1 m2 Hm12. assert (HP := hasm_tget _ _ _ Hm12). destruct Hm12 as [Hm12 _]. set (P := tget m1 _) in *. set (P' := tget m2 _) in *. clearbody P P'.
  destruct (Nat.eqb _ 1).
  - repeat pl. apply osim_ok; split; [split|]; auto.
  - repeat pl. match goal with |- context [if ?c then (?x, ?y) else _] => destruct (if c then (x, y) else _) as [a1' a2'] end.
    repeat pl. apply osim_ok; split; [split|]; auto.
Qed.
Lemma save_Yend_sim o i (Y : T1) (Y' : T2) Z Z' s : tsw Y Y' -> tsw Z Z' -> osim tsw (save_Yend o i Y Z s) (save_Yend o i Y' Z' s).
Proof. intros HY HZ. unfold save_Yend. destruct (Nat.eqb _ _); [pl|apply osim_ok; auto]. Qed.
Lemma end_core_sim o sq (C : T1) (C' : T2) Y Y' W W' : tsim C C' -> tsw Y Y' -> lsim W W' -> osim tsw (end_core o sq C Y W) (end_core o sq C' Y' W').
Proof. intros HC HY HW. unfold end_core. apply osim_bind_same. intros [a b] _. repeat pl. Qed.
Lemma copy_core_sim (P : T1) (P' : T2) C C' sq : tsim P P' -> tsw C C' -> osim tsw (copy_core P C sq) (copy_core P' C' sq).
Proof. intros HP HC. unfold copy_core. rewrite (tsim_order _ _ HP), (tsw_order _ _ HC). repeat pl. Qed.
Lemma ncols_sim (W : list T1) (W' : list T2) o : lsim W W' -> osim eq (ncols W o) (ncols W' o).
Proof. intros HW. unfold ncols. apply for_sim; auto. intros j a b _ ->. pl. apply osim_ok; auto. Qed.
Lemma mk_Yend_sim (V : T1) (V' : T2) W W' : tsw V V' -> lsim W W' -> osim tsw (mk_Yend V W) (mk_Yend V' W').
Proof.
  intros HV HW. unfold mk_Yend. rewrite (tsw_order _ _ HV), (tsw_lens _ _ HV). cbv zeta. eapply (osim_bind eq); [apply ncols_sim; auto|].
  intros a ? <-. repeat pl. apply osim_ok. auto with par.
Qed.
Lemma sgn_sim (S : T1) (S' : T2) : tsw S S' ->
  @tsw N1 N2 (mkT (lens S') (map (fun b => if nltb n0 b then n1 else nopp n1) (data S))) (mkT (lens S') (map (fun b => if nltb n0 b then n1 else nopp n1) (data S'))).
Proof. intros (H1 & H2 & H3). split; [reflexivity|]. split; unfold wf; cbn [lens data]; rewrite map_length; auto. rewrite <- H1; auto. Qed.
Lemma sign_align_sim (U : T1) (U' : T2) Sg Sg' P P' : tsw U U' -> tsw Sg Sg' -> tsw P P' -> osim tsw (sign_align U Sg P) (sign_align U' Sg' P').
Proof.
  intros HU HS HP. unfold sign_align. rewrite (tsw_ncol _ _ HU). cbv zeta. do 2 pl. apply sgn_sim in HT0. cbv zeta. repeat pl.
Qed.
Lemma transposes_sim (W : list T1) (W' : list T2) o : lsim W W' ->
  osim lsim (for_ 0 o (fun i acc => Wi <- lget W i ;; T <- assign false (zeros [ncol Wi; nrow Wi]) sij [prodt [(Wi, sji)]] ;; Ok (acc ++ [T])) [])
            (for_ 0 o (fun i acc => Wi <- lget W' i ;; T <- assign false (zeros [ncol Wi; nrow Wi]) sij [prodt [(Wi, sji)]] ;; Ok (acc ++ [T])) []).
Proof. intros HW. apply for_sim; auto. intros j A B _ HAB. repeat pl. apply osim_ok. apply Forall2_app; auto. Qed.

(** ** pairwise perturbation *)
Lemma TBuild_sim (V : T1) (V' : T2) W W' : tsw V V' -> lsim W W' -> forall fuel mp mp' args, msim mp mp' ->
  osim (hasm args) (Build_ttmc_map fuel V W mp args) (Build_ttmc_map fuel V' W' mp' args).
Proof.
  intros HV HW. induction fuel as [|fuel IH]; intros mp mp' args Hm; cbn [Build_ttmc_map]; [apply osim_err|].
  rewrite (tsw_order _ _ HV). destruct (Nat.eqb _ 0); [apply osim_err|].
  apply (osim_bind (prodR msim tsw)).
  { destruct (Nat.eqb _ 1); [apply osim_ok; split; auto|]. do 3 pl. apply (osim_bind (hasm a1)).
    - apply hasm_cached; auto.
    - intros m m' Hmm. apply osim_ok. split; [apply Hmm|]. apply hasm_tget; auto. }
  intros [m A] [m' A'] [Hmm HA]; cbn [fst snd] in *. cbv zeta. rewrite (tsw_lens _ _ HA). do 6 pl.
  apply (osim_bind eq).
  - apply for_sim; auto. intros j b ? _ <-. pl. destruct (_ =? _)%Z; repeat pl.
  - intros ls ? <-. repeat pl. apply osim_ok. split; [apply msim_put; auto|]. unfold sput. rewrite str_eqb_refl. discriminate.
Qed.
Lemma build_ttmc_sim (V : T1) (V' : T2) W W' sq : tsw V V' -> lsim W W' ->
  osim msim (build_ttmc_operators V W sq) (build_ttmc_operators V' W' sq).
Proof.
  intros HV HW. unfold build_ttmc_operators. rewrite (tsw_order _ _ HV). apply (osim_bind msim).
  - apply for_sim; auto with par. intros ii m m' _ Hm. apply for_sim; auto. intros jj m1 m2 _ Hm12. pl.
    eapply osim_weaken; [|apply TBuild_sim; eauto]. intros ? ? [H _]; exact H.
  - intros m m' Hm. apply for_sim; auto. intros jj m1 m2 _ Hm12. pl.
    eapply osim_weaken; [|apply TBuild_sim; eauto]. intros ? ? [H _]; exact H.
Qed.
Lemma pp_Y_sim (V : T1) (V' : T2) mp mp' sq seq_Y dW dW' i : tsw V V' -> msim mp mp' -> lsim dW dW' ->
  (forall a, seq_except1 (order V') sq i = Ok a -> mp' a <> None) ->
  osim (prodR tsw eq) (pp_Y V mp sq seq_Y dW i) (pp_Y V' mp' sq seq_Y dW' i).
Proof.
  intros HV Hm HD Hn. unfold pp_Y. rewrite (tsw_order _ _ HV). pl.
  assert (HY : tsw (tget mp a) (tget mp' a)) by (apply hasm_tget; split; auto).
  assert (Hstep : forall args ii A s B s', prodR tsw eq (A, s) (B, s') -> osim (prodR tsw eq)
     (let '(Y, seq_Y) := (A, s) in
      D <- lget dW ii ;;
      seq_Y <- bset seq_Y ii ch_star ;;
      let T := tget mp args in
      sY <- take (order Y) seq_Y ;;
      sT <- take (order T) sq ;;
      sD <- take (order D) (lit [chr ii; ch_star]) ;;
      Y <- assign true Y sY [prodt [(T, sT); (D, sD)]] ;;
      seq_Y <- bset seq_Y ii (chr ii) ;;
      Ok (Y, seq_Y))
     (let '(Y, seq_Y) := (B, s') in
      D <- lget dW' ii ;;
      seq_Y <- bset seq_Y ii ch_star ;;
      let T := tget mp' args in
      sY <- take (order Y) seq_Y ;;
      sT <- take (order T) sq ;;
      sD <- take (order D) (lit [chr ii; ch_star]) ;;
      Y <- assign true Y sY [prodt [(T, sT); (D, sD)]] ;;
      seq_Y <- bset seq_Y ii (chr ii) ;;
      Ok (Y, seq_Y))).
  { intros args ii A s B s' [HAB Hs]; cbn [fst snd] in *; subst s'. cbv zeta.
    assert (HT := msim_tget _ _ args Hm). rewrite (tsim_order _ _ HT), (tsw_order _ _ HAB). set (T := tget mp args) in *. set (T' := tget mp' args) in *. clearbody T T'.
    repeat pl. apply osim_ok. split; auto. }
  cbv zeta. apply (osim_bind (prodR tsw eq)).
  - apply for_sim; [|split; auto]. intros j [A s] [B s'] _ HAB. pl. apply Hstep; auto.
  - intros st1 st2 Hst. apply for_sim; auto. intros j [A s] [B s'] _ HAB. pl. apply Hstep; auto.
Qed.
End S.
