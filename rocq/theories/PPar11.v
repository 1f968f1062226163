(** hosvd over an arbitrary number type: no failure, shapes of the result. *)
From Coq Require Import List ZArith QArith Lia Bool Arith.
From Verif Require Import Base Num Tensor Spec Spec2 Spec7 MCommon MCP MTucker PBase PTensor PMat PTtm PTucker PHosvd PGrad PPar PPar2 PPar3 PPar7 PPar8.
Import ListNotations.
Local Close Scope Q_scope.

Section S.
Context {N1 N2 : num}.
Notation T1 := (tensor N1).
Notation T2 := (tensor N2).
Lemma lsim_app W W' (A : T1) (B : T2) : lsim W W' -> tsw A B -> lsim (W ++ [A]) (W' ++ [B]).
Proof. intros H1 H2. apply Forall2_app; auto. Qed.
Lemma get_core_sim (T : T1) (T' : T2) F F' ranks : tsw T T' -> lsim F F' -> osim tsw (get_core_tensor T F ranks) (get_core_tensor T' F' ranks).
Proof.
  intros HT HF. unfold get_core_tensor. rewrite (tsw_order _ _ HT), (tsw_lens _ _ HT).
  apply (osim_bind (prodR lsim eq)).
  { apply for_sim; [|split; [repeat constructor; apply HT|reflexivity]]. intros j [ca la] [cb lb] _ [Hc Hl]; cbn [fst snd] in *; subst lb.
    apply osim_bind_same. intros k _. apply osim_bind_same. intros ls _. apply osim_ok. split; [|reflexivity]. cbn [fst snd]. apply lsim_app; auto. apply tsw_zeros. }
  intros [ca la] [cb lb] [Hc Hl]; cbn [fst snd] in *; subst lb.
  apply osim_bind_same. intros [arg carg] _. apply osim_bind_same. intros arg1 _. apply osim_bind_same. intros carg1 _.
  apply (osim_bind (prodR lsim eq)).
  { apply for_sim; [|split; auto]. intros j [da sa] [db sb] _ [Hd Hs]; cbn [fst snd] in *; subst sb. repeat pl. apply osim_ok. split; auto. }
  intros [da sa] [db sb] [Hd Hs]; cbn [fst snd] in *. apply lget_sim; auto.
Qed.
End S.

Section H.
Context {N : num} (LA : lapack N) (Hsvd : svd_trunc_shaped (svd LA)).
Notation RU := Unum_ring.
Theorem get_factors_any (T : tensor N) F ranks : wf T -> (order T <= 18)%nat -> length F = order T -> ranks_ok (lens T) ranks ->
  exists W, get_factor_matrices LA T F ranks = Ok W /\ tucker_ok T W ranks.
Proof.
  intros HT Ho LF [LR HR]. unfold get_factor_matrices.
  destruct (for_inv (fun j G => length G = order T /\ forall i, (i < j)%nat -> is_mat (fac G i) (nth i (lens T) 0%nat) (nth i ranks 0%nat))
     (fun i F => MTM <- unroll_tensor_contraction T i ;; k <- lget ranks i ;;
      let '(U, _, _) := svd LA MTM k in lput F i U) 0%nat (order T) F) as (G & E & LG & PG).
  - lia.
  - split; auto. lia.
  - intros j G Hj (LG & PG).
    destruct (osim_run _ _ _ _ (unroll_sim T (cp T) j (cp_sim T HT)) (unroll_ok RU (cp T) j (proj2 (proj2 (cp_sim T HT))) Ho ltac:(change (order (cp T)) with (order T); lia))) as (M & EM & HM).
    rewrite EM. cbn [bind]. rewrite (lget_ok ranks j 0%nat) by (unfold order in Hj; lia). cbn [bind].
    assert (HMm : is_mat M (nth j (lens T) 0%nat) (nth j (lens T) 0%nat)) by (destruct HM as (H1 & H2 & _); split; auto).
    assert (HS := Hsvd M _ (nth j ranks 0%nat) HMm (HR j ltac:(unfold order in Hj; lia))). destruct (svd LA M (nth j ranks 0%nat)) as [[A Sg] VT]. destruct HS as (HA & _).
    rewrite lput_ok by lia. eexists. split; [reflexivity|]. split; [rewrite lset_length; auto|]. intros i Hi. fold (setf G j A). rewrite fac_setf by lia.
    destruct (Nat.eqb_spec i j) as [->|]; [exact HA|apply PG; lia].
  - exists G. split; [exact E|]. split; [exact HT|]. split; [exact LG|]. split; [exact LR|]. intros m Hm. apply PG. exact Hm.
Qed.
Theorem hosvd_any (T : tensor N) F ranks : wf T -> (2 <= order T <= 18)%nat -> length F = order T -> ranks_ok (lens T) ranks ->
  exists core W, hosvd LA T F ranks = Ok (core, W) /\ tucker_ok T W ranks /\ lens core = ranks /\ wf core.
Proof.
  intros HT Ho LF HR. unfold hosvd. destruct (get_factors_any T F ranks HT (proj2 Ho) LF HR) as (W & E & HW). rewrite E. cbn [bind].
  destruct (osim_run _ _ _ _ (get_core_sim T (cp T) W (map cp W) ranks (U_sim T HT) (tk_sim T ranks W HW)) (get_core_ok RU (cp T) (map cp W) ranks (tk_cp T ranks HT W HW) (proj2 Ho)))
    as (C & EC & H1 & H2 & _). rewrite EC. cbn [bind]. exists C, W. split; auto. split; auto. split; [|exact H2].
  rewrite H1. unfold tucker_core. cbn [ttmc tabulate lens]. apply nth_eq_ext with (d := 0%nat).
  - rewrite ttmc_lens_length. symmetry. apply HR.
  - intros m Hm. rewrite ttmc_lens_length in Hm. rewrite ttmc_lens_nth by exact Hm.
    assert (X := mat_ncol _ _ _ (proj2 (proj2 (proj2 (tk_cp T ranks HT W HW))) m Hm)). rewrite X.
    destruct (existsb _ _) eqn:Ee; [reflexivity|]. exfalso. assert (existsb (Nat.eqb m) (seq 0 (order (cp T))) = true); [|congruence].
    apply existsb_exists. exists m. rewrite Nat.eqb_refl, in_seq. split; [lia|reflexivity].
Qed.
End H.
