(** KhatriRao_contract in rounded arithmetic: the walk of PKhatri.v, with approximate contents *)
From Coq Require Import List ZArith Lia Bool Arith Permutation.
From Verif Require Import Base Num NumR Tensor Spec Spec27 MCommon PBase PTensor PSum PMttkrp PKhatri PRnd PRndDT2.
Import ListNotations.

Section P.
Context (rnd : Rdefinitions.R -> Rdefinitions.R) (u : Rdefinitions.R) (RE : rel_err rnd u).
Notation N := (Fl rnd).

(** a matrix indexed by a mode letter and the rank letter that represents the contraction of all other modes *)
Lemma arep_within d ltr rk ord (V : tensor N) (W : list (tensor N)) i k msf B :
  (forall i j, i < ord -> j < ord -> ltr i = ltr j -> i = j) -> (forall i, i < ord -> ltr i <> rk) ->
  lens V = map d (letters ltr ord) -> i < ord -> Permutation msf (others i ord) ->
  arep rnd u d B [ltr i; rk] k (PMr rnd d ltr rk ord V (fac W) msf) (PMa rnd d ltr rk ord V (fac W) msf) ->
  mttkrp_within u k V W i (d rk) B.
Proof.
  intros Hinj Hfr HlV Hi Hp (H1 & H2 & H3).
  assert (Ed : nth i (lens V) 0%nat = d (ltr i)).
  { rewrite HlV. unfold letters. rewrite map_map. rewrite (nth_map_lt _ _ _ 0%nat) by (rewrite seq_length; auto). rewrite nth_seq by auto. auto. }
  assert (Hlt : forall m, In m msf -> (m < ord)%nat) by (intros m Hm; apply (Permutation_in _ Hp) in Hm; apply others_in in Hm; tauto).
  assert (Hnd : NoDup msf) by (eapply Permutation_NoDup; [symmetry; eauto|apply others_nodup]).
  split; [split; [|auto]|].
  { rewrite H2. cbn [map]. rewrite Ed. reflexivity. }
  intros a r Ha Hr. rewrite Ed in Ha.
  set (e := fun c : Z => if Z.eqb c rk then r else a).
  assert (Ee : e (ltr i) = a /\ e rk = r).
  { unfold e. rewrite Z.eqb_refl. destruct (Z.eqb_spec (ltr i) rk) as [E|]; [exfalso; revert E; apply Hfr; auto|auto]. }
  destruct Ee as [E1 E2].
  assert (He : inr d [ltr i; rk] e).
  { intros c [<-|[<-|[]]]; [rewrite E1; auto|rewrite E2; auto]. }
  destruct (H3 e He) as [H _]. cbn [map] in H. rewrite E1, E2 in H.
  change (@at_ (Fl rnd) B [a; r]) with (el B a r) in H.
  assert (EM : forall (V0 : tensor Rnum) (h : tensor N -> tensor Rnum), lens V0 = lens V -> h tnil = tnil ->
     PM d ltr rk ord V0 (fun m => h (fac W m)) msf e = el (mttkrp V0 (map h W) i (d rk)) a r).
  { intros V0 h El Eh. rewrite (PM_perm Rnum_ring d ltr rk ord Hinj V0 _ msf (others i ord)); auto.
    rewrite (PM_ext d ltr rk ord V0 (fun m => h (fac W m)) (fac (map h W))) by (intros; rewrite fac_map; auto).
    rewrite (PM_mttkrp Rnum_ring d ltr rk ord Hinj Hfr V0 (map h W) i e); auto.
    - rewrite E1, E2. unfold el, mttkrp. rewrite El, Ed. rewrite at_tabulate; [reflexivity|]. repeat constructor; auto.
    - rewrite El. auto.
    - rewrite E1. auto. }
  unfold PMr, PMa in H. rewrite (EM (reals V) reals) in H by reflexivity. rewrite (EM (absols V) absols) in H by reflexivity. exact H.
Qed.

(** M["ij"] = A["ij"]: two more roundings *)
Lemma copy_ij_a (M A : tensor N) r c k x y : lens M = [r; c] -> lens A = [r; c] -> wf A ->
  (forall i j, i < r -> j < c -> rel u k (el A i j) (x i j) (y i j)) ->
  exists B, assign_b M (lit sij) [(A, lit sij)] = Ok B /\ is_mat B r c /\
    forall i j, i < r -> j < c -> rel u (k + 2) (el B i j) (x i j) (y i j).
Proof.
  intros HM HA HwA Hx.
  rewrite (assign_b_ok M (lit sij) _ sij [(A, sij)]).
  2:{ unfold order. rewrite HM. reflexivity. }
  2:{ simpl. unfold tix, order. rewrite HA. reflexivity. }
  set (d := fun ch : Z => if Z.eqb ch ch_i then r else c).
  set (q := mkFac rnd A sij k (fun e => x (e ch_i) (e ch_j)) (fun e => y (e ch_i) (e ch_j))).
  assert (Hnd : NoDup sij) by (repeat constructor; simpl; unfold ch_i, ch_j; intuition discriminate).
  destruct (contract_arep rnd u RE d M sij [q] []) as (B & E & (R1 & R2 & R3)).
  - auto.
  - rewrite HM. reflexivity.
  - intros q' [<-|[]]. subst q. cbn [ft fs fk fg fG]. split; [auto|]. split; [rewrite HA; reflexivity|].
    intros e He. apply (Hx (e ch_i) (e ch_j)); [apply (He ch_i)|apply (He ch_j)]; cbn; auto.
  - constructor.
  - intros ch. simpl. tauto.
  - intros q' [<-|[]]. subst q. split; intros e e' H; cbn [fg fG]; rewrite !H; auto.
  - exists B. split; [exact E|]. split; [split; [rewrite R2; reflexivity|auto]|].
    intros i j Hi Hj. set (e := fun ch : Z => if Z.eqb ch ch_i then i else j).
    assert (He : inr d sij e) by (intros ch [<-|[<-|[]]]; cbn; auto).
    specialize (R3 e He). cbn [sumc bigprod fold_right] in R3. subst q. cbn [fg fG fk map ksum fold_right length] in R3.
    replace (S (k + 0 + 1 + 0)) with (k + 2) in R3 by lia.
    cbn [nmul n1 Rnum] in R3. rewrite !RIneq.Rmult_1_r in R3. exact R3.
Qed.

Section KR.
Context (V : tensor N) (W : list (tensor N)) (R s : nat) (idx : list nat).
Let o := order V.
Hypothesis Ho : 2 <= o <= 10.
Hypothesis Hcube : lens V = repeat s o.
Hypothesis HW : factors_ok V W R.
Hypothesis Hidx : Permutation idx (seq 0 o).
Let d := dV (lens V) ch_k R.

Lemma KR_len : length idx = o.
Proof. rewrite (Permutation_length Hidx). apply seq_length. Qed.
Lemma KR_nth i : i < o -> nth i idx 0%nat < o.
Proof.
  intros Hi. assert (In (nth i idx 0%nat) idx) by (apply nth_In; rewrite KR_len; auto).
  apply (Permutation_in _ Hidx) in H. apply in_seq in H. lia.
Qed.
Lemma KR_nodup : NoDup idx.
Proof. eapply Permutation_NoDup; [symmetry; exact Hidx|apply seq_NoDup]. Qed.
Lemma KR_V i : i < o -> nth i (lens V) 0%nat = s.
Proof. intros. rewrite Hcube. apply nth_rep. auto. Qed.
Lemma KR_d m : m < o -> d (chr m) = s.
Proof. intros. unfold d. rewrite dV_chr; [apply KR_V; auto|lia|apply chr_not_k; lia]. Qed.

Lemma KR_letters : lens V = map d (letters chr o).
Proof.
  apply dV_letters; change (length (lens V)) with o; [lia|]. intros. apply chr_not_k. lia.
Qed.

Lemma KR_rows j : j <= o - 1 ->
  map d (map chr (skipn j idx) ++ [ch_k]) = repeat s (o - j) ++ [R].
Proof.
  intros Hj. rewrite map_app, map_map. cbn [map]. unfold d at 2. rewrite dV_rk. apply (f_equal (fun l => l ++ [R])).
  apply nth_ext with (d:=0%nat) (d':=0%nat).
  - rewrite map_length, skipn_length, repeat_length, KR_len. auto.
  - intros i Hi. rewrite map_length, skipn_length, KR_len in Hi.
    rewrite (nth_map_lt _ _ _ 0%nat) by (rewrite skipn_length, KR_len; auto).
    rewrite nth_skipn, nth_rep by lia. apply KR_d. apply KR_nth. lia.
Qed.

Lemma KR_string_nodup j : NoDup (map chr (skipn j idx) ++ [ch_k]).
Proof.
  assert (Hlt : forall m, In m (skipn j idx) -> m < o).
  { intros m Hm. assert (In m idx) by (rewrite <- (firstn_skipn j idx); apply in_or_app; auto).
    apply (Permutation_in _ Hidx) in H. apply in_seq in H. lia. }
  apply NoDup_app_intro.
  - apply NoDup_map_inj.
    + intros x y Hx Hy. apply chr_inj; [apply Hlt in Hx|apply Hlt in Hy]; lia.
    + pose proof KR_nodup as Hn. rewrite <- (firstn_skipn j idx) in Hn.
      apply NoDup_app_remove_l in Hn. auto.
  - repeat constructor. auto.
  - intros x Hx [<-|[]]. apply in_map_iff in Hx as (m & E & Hm). apply (chr_not_k m); auto.
    specialize (Hlt m Hm). lia.
Qed.
Lemma KR_in_string j c : In c (map chr (skipn j idx) ++ [ch_k]) -> c = ch_k \/ In c (letters chr o).
Proof.
  rewrite in_app_iff. intros [H|[<-|[]]]; auto. right.
  apply in_map_iff in H as (m & <- & Hm). apply in_map.
  assert (In m idx) by (rewrite <- (firstn_skipn j idx); apply in_or_app; auto).
  apply (Permutation_in _ Hidx) in H. auto.
Qed.

(** the lengths written by the first step and by step j *)
Let lensH : buf nat := map Some (repeat s (o - 1) ++ [R]).

Lemma KR_W0 : exists W0 : tensor N, lget W 0 = Ok W0 /\ ncol W0 = R.
Proof.
  destruct HW as (_ & HL & HWm). exists (fac W 0). split.
  - apply lget_ok. fold o in HL. lia.
  - destruct (HWm 0%nat) as [E _]; [fold o; lia|]. unfold ncol. rewrite E. auto.
Qed.
Lemma KR_Wm m : m < o -> lget W m = Ok (fac W m).
Proof. intros. apply lget_ok. destruct HW as (_ & HL & _). fold o in HL. lia. Qed.
Lemma KR_mat m : m < o -> is_mat (fac W m) (d (chr m)) (d ch_k).
Proof.
  intros. rewrite KR_d by auto. unfold d at 1. rewrite dV_rk.
  destruct HW as (_ & _ & H1). specialize (H1 m H). rewrite KR_V in H1 by auto. auto.
Qed.

Theorem KhatriRao_contract_ok M n :
  nth (o - 1) idx 0%nat = n ->
  lens M = [s; R] ->
  exists M', KhatriRao_contract M V W (map Some idx) lensH = Ok M' /\ mttkrp_within u (mode_roundings (lens V) n + 2) V W n R M'.
Proof.
  intros Hn HM. unfold KhatriRao_contract. fold o.
  destruct KR_W0 as (W0 & -> & EK). cbn [bind]. rewrite EK.
  pose proof KR_len as HL.
  assert (HlH : length lensH = o).
  { unfold lensH. rewrite map_length, app_length, repeat_length. simpl. lia. }
  assert (HlensH : forall m, m < o - 1 -> bget lensH m = Ok s).
  { intros m Hm. unfold lensH. rewrite (bget_map _ _ 0%nat) by (rewrite app_length, repeat_length; simpl; lia).
    rewrite app_nth1 by (rewrite repeat_length; auto). rewrite nth_rep by lia. auto. }
  assert (Hbi : forall i, i < o -> bget (map Some idx) i = Ok (nth i idx 0%nat)).
  { intros. apply bget_map. lia. }
  bsets. rewrite Hbi by lia. cbn [bind]. bsets.
  (* seq *)
  fillwith 0%nat chr (o + 1)%nat Lq Pq.
  { intros j b Hj Hb. f_equal; lia. }
  (* seq_f *)
  fillwith 0%nat (fun jj => chr (nth jj idx 0%nat)) (o + 1)%nat Lf Pf.
  { intros j b' Hj Hb'. rewrite Hbi by lia. cbn [bind]. f_equal; lia. }
  assert (o =? 0 = false)%nat as -> by (apply Nat.eqb_neq; lia).
  bsets.
  fillwith 0%nat (fun _ : nat => s) o Ll Pl.
  { intros j b' Hj Hb'. rewrite HlensH by lia. cbn [bind]. f_equal; lia. }
  bsets.
  rewrite (take_zeros o _ (map d (map chr (skipn 1 idx) ++ [ch_k]))).
  2:{ rewrite KR_rows by lia. apply take_list with (d:=0%nat).
      - rewrite app_length, repeat_length. simpl. lia.
      - intros i Hi. rewrite lset_nth_error, Pl, nth_snoc, repeat_length.
        natcases; simpl; auto; rewrite ?nth_rep by lia; auto. }
  cbn [bind]. rewrite KR_Wm by (apply KR_nth; lia). cbn [bind].
  set (i0 := nth 0 idx 0%nat).
  rewrite (assign_b_ok _ _ _ (map chr (skipn 1 idx) ++ [ch_k]) [(V, letters chr o); (fac W i0, [chr i0; ch_k])]).
  2:{ unfold order. cbn [zeros tabulate lens]. rewrite map_length. apply take_list with (d:=0%Z); auto.
      rewrite app_length, map_length, skipn_length. simpl length.
      intros i Hi. rewrite lset_nth_error, Pf, nth_snoc, map_length, skipn_length.
      natcases; cbn [andb]; auto. do 2 f_equal. rewrite (nth_map_lt _ _ _ 0%nat) by (rewrite skipn_length; lia).
      rewrite nth_skipn. do 2 f_equal. lia. }
  2:{ apply tixs2.
      - fold o. apply take_list with (d:=0%Z); [unfold letters; rewrite map_length, seq_length; auto|].
        intros i Hi. rewrite Pq. unfold letters. rewrite (nth_map_lt _ _ _ 0%nat) by (rewrite seq_length; auto).
        rewrite nth_seq by auto. natcases. simpl. do 3 f_equal. lia.
      - destruct (KR_mat i0) as [E1 _]; [apply KR_nth; lia|]. unfold order. rewrite E1. reflexivity. }
  destruct (pm_astep rnd u RE d chr ch_k o ltac:(intros; eapply (chr_inj_ord o); eauto; lia) ltac:(intros; apply chr_not_k; lia)
              V (fac W) [] i0 V (letters chr o) (map chr (skipn 1 idx) ++ [ch_k])
              (zeros (map d (map chr (skipn 1 idx) ++ [ch_k])))) as (V1 & E1 & R1).
  { apply arep_start; auto. destruct HW; auto. apply KR_letters. }
  { apply KR_nth; lia. }
  { auto. }
  { intros m []. }
  { apply KR_mat, KR_nth; lia. }
  { apply in_map. apply in_seq. assert (i0 < o) by (apply KR_nth; lia). lia. }
  { auto. }
  { apply KR_string_nodup. }
  { intros c. rewrite in_app_iff. split.
    - intros [H|[<-|[]]]; auto. left. apply in_map_iff in H as (m & <- & Hm).
      assert (Hm' : In m idx) by (rewrite <- (firstn_skipn 1 idx); apply in_or_app; auto).
      apply (Permutation_in _ Hidx) in Hm'. split; [apply in_map; auto|].
      intros E'. apply in_seq in Hm'. assert (m = i0).
      { apply (chr_inj_ord o) in E'; auto; try lia. apply KR_nth; lia. }
      subst m. pose proof KR_nodup as Hd.
      rewrite <- (firstn_skipn 1 idx) in Hd.
      assert (firstn 1 idx = [i0]).
      { destruct idx as [|a l]; [simpl in HL; lia|]. reflexivity. }
      rewrite H in Hd. inversion Hd; auto.
    - intros [[H1 H2]|H]; [|right; left; auto]. left.
      apply in_map_iff in H1 as (m & <- & Hm). apply in_map.
      apply (Permutation_in _ (Permutation_sym Hidx)) in Hm.
      destruct idx as [|a l]; [simpl in HL; lia|]. simpl. destruct Hm as [->|Hm]; auto. exfalso; auto. }
  { reflexivity. }
  rewrite E1. cbn [bind].
  (* the loop *)
  lazymatch goal with |- exists M', bind (for_ 1 (o - 1) ?body ?st0) _ = _ /\ _ =>
    destruct (for_inv (fun j (st : tensor N * buf Z) =>
       arep rnd u d (fst st) (map chr (skipn j idx) ++ [ch_k]) (kms d chr (rev (firstn j idx))) (PMr rnd d chr ch_k o V (fac W) (rev (firstn j idx))) (PMa rnd d chr ch_k o V (fac W) (rev (firstn j idx)))
       /\ exists x, snd st = [x; Some ch_k; Some 0%Z]) body 1%nat (o - 1)%nat st0) as (st' & E & (Hrep & _))
  end.
  { lia. }
  { cbn [fst snd]. split; [|eexists; reflexivity].
    assert (firstn 1 idx = [i0]) as ->.
    { destruct idx as [|a l]; [simpl in HL; lia|]. reflexivity. }
    exact R1. }
  { intros j [Vf sw] Hj [Hr [x Hx]]. simpl in Hr, Hx. subst sw.
    assert (Hof : order Vf = (o - j + 1)%nat).
    { rewrite (arep_order rnd u d _ _ _ _ _ Hr), app_length, map_length, skipn_length. simpl. lia. }
    rewrite Hof. bsets.
    fillwith 0%nat (fun jj => chr (nth jj idx 0%nat)) (o - j + 1 + 1)%nat Lq' Pq'.
    { intros k b3 Hk Hb3. rewrite Hbi by lia. cbn [bind]. f_equal; lia. }
    bsets. rewrite Hbi by lia. cbn [bind].
    rewrite bset_ok by (simpl; lia). cbn [bind lset].
    bsets.
    fillwith 0%nat (fun jj => chr (nth jj idx 0%nat)) (o - j + 1)%nat Lf' Pf'.
    { intros k b4 Hk Hb4. rewrite Hbi by lia. cbn [bind]. f_equal; lia. }
    bsets.
    fillwith 0%nat (fun _ : nat => s) (o - j)%nat Ll' Pl'.
    { intros k b5 Hk Hb5. rewrite HlensH by lia. cbn [bind]. f_equal; lia. }
    bsets.
    rewrite (take_zeros (o - j) _ (map d (map chr (skipn (S j) idx) ++ [ch_k]))).
    2:{ rewrite KR_rows by lia. apply take_list with (d:=0%nat).
        - rewrite app_length, repeat_length. simpl. lia.
        - intros i Hi. rewrite lset_nth_error, Pl', nth_snoc, repeat_length.
          natcases; simpl; auto; rewrite ?nth_rep by lia; auto. }
    cbn [bind]. set (ij := nth j idx 0%nat).
    assert (Hij : ij < o) by (apply KR_nth; lia).
    rewrite KR_Wm by auto. cbn [bind].
    rewrite (assign_b_ok _ _ _ (map chr (skipn (S j) idx) ++ [ch_k])
               [(Vf, map chr (skipn j idx) ++ [ch_k]); (fac W ij, [chr ij; ch_k])]).
    2:{ unfold order. cbn [zeros tabulate lens]. rewrite map_length. apply take_list with (d:=0%Z); auto.
        rewrite app_length, map_length, skipn_length. simpl length.
        intros i Hi. rewrite lset_nth_error, Pf', nth_snoc, map_length, skipn_length.
        natcases; cbn [andb]; auto. do 2 f_equal. rewrite (nth_map_lt _ _ _ 0%nat) by (rewrite skipn_length; lia).
        rewrite nth_skipn. do 2 f_equal. lia. }
    2:{ apply tixs2.
        - rewrite Hof. apply take_list with (d:=0%Z).
          + rewrite app_length, map_length, skipn_length. simpl length. lia.
          + intros i Hi. rewrite lset_nth_error, Pq', nth_snoc, map_length, skipn_length.
            natcases; cbn [andb]; auto. do 2 f_equal. rewrite (nth_map_lt _ _ _ 0%nat) by (rewrite skipn_length; lia).
            rewrite nth_skipn. do 2 f_equal. lia.
        - destruct (KR_mat ij Hij) as [E2 _]. unfold order. rewrite E2. reflexivity. }
    assert (Hsk : skipn j idx = ij :: skipn (S j) idx) by (apply skipn_cons_nth; lia).
    assert (Hnd : ~ In ij (firstn j idx) /\ ~ In ij (skipn (S j) idx)).
    { pose proof KR_nodup as Hd. rewrite <- (firstn_skipn j idx), Hsk in Hd.
      apply NoDup_remove_2 in Hd. rewrite in_app_iff in Hd. tauto. }
    destruct (pm_astep rnd u RE d chr ch_k o ltac:(intros; eapply (chr_inj_ord o); eauto; lia) ltac:(intros; apply chr_not_k; lia)
              V (fac W) (rev (firstn j idx)) ij Vf (map chr (skipn j idx) ++ [ch_k]) (map chr (skipn (S j) idx) ++ [ch_k])
              (zeros (map d (map chr (skipn (S j) idx) ++ [ch_k])))) as (V2 & E2 & R2).
    { exact Hr. }
    { auto. }
    { rewrite <- in_rev. tauto. }
    { intros m Hm. apply in_rev in Hm. assert (Hm' : In m idx) by (rewrite <- (firstn_skipn j idx); apply in_or_app; auto).
      apply (Permutation_in _ Hidx), in_seq in Hm'. lia. }
    { apply KR_mat; auto. }
    { rewrite Hsk. left. auto. }
    { apply KR_in_string. }
    { apply KR_string_nodup. }
    { intros c. rewrite !in_app_iff, Hsk. simpl. split.
      - intros [H|[<-|[]]]; auto. left. split; auto. intros ->.
        apply in_map_iff in H as (m & E' & Hm).
        assert (Hm' : In m idx) by (rewrite <- (firstn_skipn (S j) idx); apply in_or_app; auto).
        apply (Permutation_in _ Hidx), in_seq in Hm'.
        apply (chr_inj_ord o) in E'; try lia. subst m. tauto.
      - intros [[[[H|H]|[H|[]]] H2]|H]; auto; congruence. }
    { reflexivity. }
    rewrite E2. cbn [bind]. eexists; split; [reflexivity|]. simpl fst. simpl snd. split; [|eexists; reflexivity].
    rewrite (firstn_snoc_nth idx j 0%nat) by lia. rewrite rev_unit. exact R2. }
  rewrite E. cbn [bind]. destruct st' as [Vf sw]. simpl in Hrep.
  rewrite (skipn_cons_nth idx (o - 1) 0%nat) in Hrep by lia.
  rewrite (skipn_all2 idx) in Hrep by lia. rewrite Hn in Hrep. simpl in Hrep.
  assert (Hno : n < o) by (rewrite <- Hn; apply KR_nth; lia).
  assert (Hperm : Permutation (rev (firstn (o - 1) idx)) (others n o)).
  { rewrite <- Permutation_rev. apply NoDup_Permutation.
      + pose proof KR_nodup as Hd. rewrite <- (firstn_skipn (o - 1) idx) in Hd. eapply NoDup_app_remove_r; eauto.
      + apply others_nodup.
      + intros m. rewrite others_in.
        assert (Hsplit : idx = firstn (o - 1) idx ++ [n]).
        { rewrite <- (firstn_skipn (o - 1) idx) at 1. f_equal.
          rewrite (skipn_cons_nth idx (o - 1) 0%nat) by lia. rewrite Hn. f_equal. apply skipn_all2. lia. }
        pose proof KR_nodup as Hd. rewrite Hsplit in Hd. apply NoDup_remove_2 in Hd. rewrite app_nil_r in Hd.
        split.
        * intros Hm. split; [|intros ->; auto].
          assert (Hm' : In m idx) by (rewrite Hsplit; apply in_or_app; auto).
          apply (Permutation_in _ Hidx), in_seq in Hm'. lia.
        * intros [H1 H2]. assert (Hm' : In m idx).
          { apply (Permutation_in _ (Permutation_sym Hidx)), in_seq. lia. }
          rewrite Hsplit in Hm'. apply in_app_or in Hm'. destruct Hm' as [|[|[]]]; auto. congruence. }
  assert (Ek : kms d chr (rev (firstn (o - 1) idx)) = mode_roundings (lens V) n).
  { unfold kms, mode_roundings. change (length (lens V)) with o. rewrite (ksum_perm _ _ (Permutation_map (fun m => d (chr m) + 3)%nat Hperm)).
    unfold ksum. f_equal. apply map_ext_in. intros m Hm. apply others_in in Hm. rewrite KR_d, KR_V by tauto. auto. }
  rewrite Ek in Hrep.
  assert (HRk : d ch_k = R) by (unfold d; apply dV_rk).
  pose proof (arep_within d chr ch_k o V W n _ _ Vf ltac:(intros; eapply (chr_inj_ord o); eauto; lia) ltac:(intros; apply chr_not_k; lia) KR_letters Hno Hperm Hrep) as HWi.
  rewrite HRk in HWi. destruct HWi as [[HlV HwV] HWi].
  rewrite KR_V in HlV, HWi by auto.
  assert (Hin : forall a r, a < s -> r < R -> rel u (mode_roundings (lens V) n) (el Vf a r) (@el Rnum (mttkrp (reals V) (map reals W) n R) a r) (@el Rnum (mttkrp (absols V) (map absols W) n R) a r)).
  { intros a r Ha Hr. split; [apply HWi; auto|].
    destruct Hrep as (_ & _ & Hrep).
    set (e := fun c : Z => if Z.eqb c ch_k then r else a).
    assert (Ee : e (chr n) = a).
    { unfold e. destruct (Z.eqb_spec (chr n) ch_k) as [E'|]; [exfalso; revert E'; apply chr_not_k; lia|auto]. }
    destruct (Hrep e) as [_ H].
    { intros c [<-|[<-|[]]]; [rewrite Ee, KR_d; auto|rewrite HRk; auto]. }
    assert (EM : forall (V0 : tensor Rnum) (h : tensor N -> tensor Rnum), lens V0 = lens V -> h tnil = tnil ->
       PM d chr ch_k o V0 (fun m => h (fac W m)) (rev (firstn (o - 1) idx)) e = el (mttkrp V0 (map h W) n R) a r).
    { intros V0 h El Eh.
      assert (Hinj : forall i j, i < o -> j < o -> chr i = chr j -> i = j) by (intros; eapply (chr_inj_ord o); eauto; lia).
      assert (Hfr : forall i, i < o -> chr i <> ch_k) by (intros; apply chr_not_k; lia).
      rewrite (PM_perm Rnum_ring d chr ch_k o Hinj V0 _ _ (others n o)); auto.
      2:{ eapply Permutation_NoDup; [symmetry; exact Hperm|apply others_nodup]. }
      2:{ intros m Hm. apply (Permutation_in _ Hperm) in Hm. apply others_in in Hm. tauto. }
      rewrite (PM_ext d chr ch_k o V0 (fun m => h (fac W m)) (fac (map h W))) by (intros; rewrite fac_map; auto).
      rewrite (PM_mttkrp Rnum_ring d chr ch_k o Hinj Hfr V0 (map h W) n e); auto.
      - rewrite Ee. unfold el, mttkrp. rewrite El, KR_V by auto. rewrite at_tabulate; [reflexivity|]. repeat constructor; auto.
      - rewrite El. apply KR_letters.
      - rewrite Ee, KR_d; auto. }
    unfold PMr, PMa in H. rewrite (EM (reals V) reals) in H by reflexivity. rewrite (EM (absols V) absols) in H by reflexivity. exact H. }
  destruct (copy_ij_a M Vf s R _ _ _ HM HlV HwV Hin) as (B & EB & HB & HBw).
  rewrite EB. exists B. split; [reflexivity|]. split; [rewrite KR_V by auto; exact HB|].
  intros a r Ha Hr. rewrite KR_V in Ha by auto. apply HBw; auto.
Qed.
End KR.
End P.
