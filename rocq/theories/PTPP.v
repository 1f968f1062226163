(** Tucker pairwise perturbation: the operators and the approximate sweep *)
From Coq Require Import List ZArith Lia Bool Arith Permutation Ring.
From Verif Require Import Base Num Tensor Spec Spec7 MCommon MCP MTucker PBase PTensor PSum PMttkrp PPart PMat PKhatri PGrad PKhatriBad PDT PDTSweep PALS PDrivers PTree PBuildV PPP
  PTtm PTucker PHosvd PTDT PSign PTSweep.
Import ListNotations.

Section P.
Context {N : num} (RL : ring_laws N) (LA : lapack N).
Let RT : ring_theory (@n0 N) n1 nadd nmul nsub nopp (@eq N) := RL.
Add Ring NringPP : RT.
Local Open Scope num_scope.
Context (V : tensor N).
Let o := order V.
Hypothesis Ho : (1 <= o <= 31)%nat.

(** an entry: V contracted in the modes of its name *)
Definition tptable (W : list (tensor N)) (mp : smap (tensor N)) : Prop :=
  forall s T, mp s = Some T -> exists ms, asc o ms /\ s = map chr ms /\ T = ttmc V W ms.

Lemma tt_asc_inj ms ms' : asc o ms -> asc o ms' -> map chr ms = map chr ms' -> ms = ms'.
Proof.
  intros H1 H2. apply map_chr_inj_len; apply Forall_forall; intros m Hm;
   [apply (asc_lt _ _ _ H1) in Hm|apply (asc_lt _ _ _ H2) in Hm]; lia.
Qed.

Lemma TBuild_ok W : shapes V W -> forall fuel ms mp,
  asc o ms -> (1 <= length ms <= 8)%nat -> (length ms <= fuel)%nat -> tptable W mp ->
  exists mp', Build_ttmc_map fuel V W mp (map chr ms) = Ok mp' /\ tptable W mp' /\
    mp' (map chr ms) = Some (ttmc V W ms) /\ (forall s, mp s <> None -> mp' s <> None).
Proof.
  intros HW. pose proof HW as (HV & LW & HM). induction fuel as [|fuel IH]; intros ms mp Ha Hl Hf Hmp; [lia|].
  cbn [Build_ttmc_map]. fold o. rewrite map_length.
  destruct (Nat.eqb_spec (length ms) 0); [lia|].
  set (ms' := firstn (length ms - 1) ms). assert (Ha' : asc o ms') by (apply asc_firstn; auto).
  assert (Hl' : length ms' = (length ms - 1)%nat) by (unfold ms'; rewrite firstn_length; lia).
  set (m := nth (length ms - 1) ms 0%nat).
  assert (Ems : ms = ms' ++ [m]).
  { unfold ms', m. rewrite <- (firstn_skipn (length ms - 1) ms) at 1. f_equal.
    rewrite (skipn_cons_nth _ _ 0%nat) by lia. replace (S (length ms - 1)) with (length ms) by lia. rewrite skipn_all. auto. }
  assert (Hm : (m < o)%nat) by (apply (asc_lt o ms); auto; rewrite Ems; apply in_or_app; right; left; auto).
  assert (Hmn : ~ In m ms').
  { pose proof (asc_nodup _ _ Ha) as Hnd. rewrite Ems in Hnd. apply NoDup_remove_2 in Hnd. rewrite app_nil_r in Hnd. auto. }
  assert (HM1 : exists mp1, (if Nat.eqb (length ms) 1 then Ok (mp, V) else
      b <- strncpy (newbuf 8) 0 (firstn (length ms - 1) (map chr ms)) ;;
      b <- bset b (length ms - 1) 0%Z ;;
      args2 <- cstr b ;;
      mp <- (match mp args2 with Some _ => Ok mp | None => Build_ttmc_map fuel V W mp args2 end) ;;
      Ok (mp, tget mp args2)) = Ok (mp1, ttmc V W ms') /\ tptable W mp1 /\ (forall s, mp s <> None -> mp1 s <> None)).
  { destruct (Nat.eqb_spec (length ms) 1) as [El|El].
    - exists mp. assert (ms' = []) as -> by (apply length_zero_iff_nil; lia). rewrite (ttmc_nil RL) by auto. auto.
    - rewrite firstn_map. fold ms'.
      destruct (strncpy_ok (newbuf 8) 0 (map chr ms')) as (b & Eb & Lb & Pb). { rewrite map_length. cbn. lia. }
      rewrite Eb. cbn [bind]. rewrite newbuf_length in Lb. rewrite bset_ok by lia. cbn [bind].
      rewrite (holds_cstr _ (map chr ms')).
      2:{ split.
          - intros i Hi. rewrite map_length in Hi. rewrite lset_nth_error, Pb, map_length. natcases; cbn [andb]; rewrite Nat.sub_0_r; auto.
          - rewrite map_length, lset_nth_error, Lb. natcases; auto. }
      2:{ intros c Hc. apply in_map_iff in Hc as (x & <- & Hx). apply (asc_lt _ _ _ Ha') in Hx. apply chr_nz. lia. }
      cbn [bind]. destruct (mp (map chr ms')) as [T'|] eqn:Em.
      + cbn [bind]. exists mp. split; auto. f_equal. f_equal. unfold tget. rewrite Em.
        destruct (Hmp _ _ Em) as (ms2 & Ha2 & E2 & ->). apply tt_asc_inj in E2; auto. subst ms2. auto.
      + destruct (IH ms' mp Ha') as (mp1 & E1 & H1 & H2 & H3); auto; try lia. rewrite E1. cbn [bind]. exists mp1.
        split; auto. f_equal. f_equal. unfold tget. rewrite H2. auto. }
  destruct HM1 as (mp1 & E1 & Hmp1 & Hmono).
  match type of E1 with ?L = _ => match goal with |- context [bind ?X _] => change X with L end end.
  rewrite E1. cbn [bind]. clear E1.
  rewrite mk_seqV_ok. cbn [bind].
  unfold str_at at 1. rewrite map_length. destruct (Nat.ltb_spec (length ms - 1) (length ms)); [|lia].
  rewrite (lget_ok _ _ 0%Z) by (rewrite map_length; lia). cbn [bind]. rewrite (nth_map_lt _ _ _ 0%nat) by lia. fold m.
  rewrite ix_chr by lia. cbn [bind]. rewrite lbuf_sb. rewrite sb_bset by (rewrite letters_len; auto). cbn [bind].
  set (s1 := lset (letters chr o) m ch_star).
  assert (L1 : length s1 = o) by (unfold s1; rewrite lset_length, letters_len; auto).
  assert (N1 : forall i, (i < o)%nat -> nth i s1 0%Z = if Nat.eqb i m then ch_star else chr i).
  { intros i Hi. unfold s1. destruct (Nat.eqb_spec i m) as [->|Hn]; [apply lset_same; rewrite letters_len; auto|].
    rewrite lset_other by auto. apply letters_nth. auto. }
  rewrite (holds_cstr (sb s1) s1).
  2:{ unfold sb. split.
      - intros i Hi. rewrite nth_error_map, (nth_error_nth_some _ _ 0%Z) by (rewrite app_length; cbn; lia). rewrite app_nth1 by lia. auto.
      - rewrite nth_error_map, (nth_error_nth_some _ _ 0%Z) by (rewrite app_length; cbn; lia). rewrite nth_middle. auto. }
  2:{ intros c Hc. apply (In_nth _ _ 0%Z) in Hc as (i & Hi & <-). rewrite N1 by lia. destruct (Nat.eqb i m); [discriminate|apply chr_nz; lia]. }
  cbn [bind]. rewrite L1.
  set (M := ttmc V W ms').
  assert (OM : length (lens M) = o) by apply ttmc_order.
  destruct (fill_for 0 o (fun ii b => ch <- str_at s1 ii ;;
        if Z.eqb ch ch_star then Wi <- lget W ii ;; bset b ii (ncol Wi) else l <- lget (lens M) ii ;; bset b ii l) 0
      (fun i => nth i (lset (lens M) m (ncol (fac W m))) 0%nat) (newbuf o) o) as (b & Eb & Lb & Pb).
  { apply newbuf_length. } { lia. }
  { intros j b Hj Hb. unfold str_at. rewrite L1. destruct (Nat.ltb_spec j o); [|lia].
    rewrite (lget_ok _ _ 0%Z) by lia. cbn [bind]. rewrite N1 by lia. replace (0 + (j - 0))%nat with j by lia.
    destruct (Nat.eqb_spec j m) as [->|Hn].
    - rewrite Z.eqb_refl. rewrite (lget_ok W m tnil) by (rewrite LW; auto). cbn [bind]. fold (fac W m). rewrite lset_same by lia. auto.
    - destruct (Z.eqb_spec (chr j) ch_star) as [Ec|_]; [exfalso; apply (chr_not_star j); auto; lia|].
      rewrite (lget_ok _ _ 0%nat) by lia. cbn [bind]. rewrite lset_other by auto. auto. }
  rewrite Eb. cbn [bind]. unfold new_tensor.
  rewrite (take_list _ b (lset (lens M) m (ncol (fac W m))) 0%nat).
  2:{ rewrite lset_length. auto. }
  2:{ intros i Hi. rewrite Pb. natcases. cbn [andb]. rewrite Nat.sub_0_r. auto. }
  cbn [bind]. rewrite (lget_ok W m tnil) by (rewrite LW; auto). cbn [bind]. fold (fac W m).
  rewrite assign_b_sb2.
  2:{ unfold order. cbn [zeros tabulate lens]. rewrite lset_length, L1. auto. }
  2:{ rewrite letters_len. apply ttmc_order. }
  2:{ apply (mat_order _ _ _ (HM m Hm)). }
  unfold M, s1. unfold o. rewrite (ttm_step RL false _ V W ms' m ch_star HW) by (auto; try (fold o; lia); apply star_fresh; fold o; lia).
  cbn [bind]. fold o.
  assert (Ep : ttmc V W (m :: ms') = ttmc V W ms).
  { apply (ttmc_perm RL). rewrite Ems at 1. apply Permutation_cons_append. }
  rewrite Ep. eexists. split; [reflexivity|]. split; [|split].
  - intros s T' E. unfold sput in E. destruct (str_eqb_spec s (map chr ms)) as [->|].
    + injection E as <-. exists ms. auto.
    + apply Hmp1. auto.
  - apply sput_eq.
  - intros s Hs. unfold sput. destruct (str_eqb s (map chr ms)); [discriminate|auto].
Qed.

(** all operators: orders 3 to 9 *)
Theorem operators_ok W : (3 <= o <= 9)%nat -> shapes V W ->
  exists mp, build_ttmc_operators V W (lbuf o) = Ok mp /\
    (forall i j, (i < j)%nat -> (j < o)%nat -> mp (map chr (outside [i; j] o)) = Some (ttmc V W (outside [i; j] o))) /\
    (forall i, (i < o)%nat -> mp (map chr (outside [i] o)) = Some (ttmc V W (outside [i] o))).
Proof.
  intros Ho9 HW. unfold build_ttmc_operators. fold o.
  assert (Hval : forall mp rest, tptable W mp -> mp (map chr (outside rest o)) <> None -> mp (map chr (outside rest o)) = Some (ttmc V W (outside rest o))).
  { intros mp rest Ht Hn. destruct (mp (map chr (outside rest o))) as [T|] eqn:E; [|contradiction].
    destruct (Ht _ _ E) as (ms & Ha & E2 & ->). apply tt_asc_inj in E2; auto using outside_asc. subst ms. auto. }
  destruct (for_inv (fun k mp => tptable W mp /\ forall i j, (i < k)%nat -> (i < j)%nat -> (j < o)%nat -> mp (map chr (outside [i; j] o)) <> None)
    (fun ii mp => for_ (ii + 1) o (fun jj mp => s <- seq_except2 o (lbuf o) ii jj ;; Build_ttmc_map (o + 1) V W mp s) mp) 0 o sempty)
    as (mp & E & Ht & Hin).
  - lia.
  - split; [intros s T E; discriminate|]. intros; lia.
  - intros i mp Hi (Ht & Hin).
    destruct (for_inv (fun k mp' => tptable W mp' /\ (forall s, mp s <> None -> mp' s <> None) /\
        forall j, (i < j)%nat -> (j < k)%nat -> mp' (map chr (outside [i; j] o)) <> None)
      (fun jj mp => s <- seq_except2 o (lbuf o) i jj ;; Build_ttmc_map (o + 1) V W mp s) (i + 1) o mp) as (mp' & E & Ht' & Hm' & Hin').
    + lia.
    + split; auto. split; auto. intros; lia.
    + intros j mp' Hj (Ht' & Hm' & Hin'). rewrite except2_ok by lia. cbn [bind].
      destruct (TBuild_ok W HW (o + 1) (outside [i; j] o) mp') as (mp2 & E2 & Ht2 & Hn2 & Hm2); auto using outside_asc.
      { rewrite outside_length by (apply asc_two; lia). cbn. lia. }
      { rewrite outside_length by (apply asc_two; lia). lia. }
      exists mp2. split; auto. split; auto. split; [auto|]. intros j' H1 H2.
      destruct (Nat.eq_dec j' j) as [->|]; [rewrite Hn2; discriminate|]. apply Hm2, Hin'; lia.
    + exists mp'. split; auto. split; auto. intros i' j H1 H2 H3. destruct (Nat.eq_dec i' i) as [->|]; [apply Hin'; auto|].
      apply Hm', Hin; lia.
  - rewrite E. cbn [bind]. clear E.
    destruct (for_inv (fun k mp' => tptable W mp' /\ (forall s, mp s <> None -> mp' s <> None) /\
        forall i, (i < k)%nat -> mp' (map chr (outside [i] o)) <> None)
      (fun ii mp => s <- seq_except1 o (lbuf o) ii ;; Build_ttmc_map (o + 1) V W mp s) 0 o mp) as (mp' & E & Ht' & Hm' & Hin').
    + lia.
    + split; auto. split; auto. intros; lia.
    + intros i mp' Hi (Ht' & Hm' & Hin'). rewrite except1_ok by lia. cbn [bind].
      destruct (TBuild_ok W HW (o + 1) (outside [i] o) mp') as (mp2 & E2 & Ht2 & Hn2 & Hm2); auto using outside_asc.
      { rewrite outside_length by (apply asc_one; lia). cbn. lia. }
      { rewrite outside_length by (apply asc_one; lia). lia. }
      exists mp2. split; auto. split; auto. split; [auto|]. intros j' H1.
      destruct (Nat.eq_dec j' i) as [->|]; [rewrite Hn2; discriminate|]. apply Hm2, Hin'; lia.
    + exists mp'. split; auto. split.
      * intros i j H1 H2. apply Hval; auto. apply Hm', Hin; auto. lia.
      * intros i Hi. apply Hval; auto.
Qed.
End P.
