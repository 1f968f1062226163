(** Gauss_Seidel *)
From Coq Require Import List ZArith QArith Lia Bool Arith Permutation Ring.
From Verif Require Import Base Num Tensor Spec Spec3 Spec10 MCommon MHelpers PBase PTensor PSum PMttkrp PMat PMatAlg PResid PGrad PSolve PRank PRank2.
Import ListNotations.
Local Close Scope Q_scope.

Ltac ev := cbv -[nadd nmul nopp nsub n0 n1 bigsum at_ el seq car gram_at].
Ltac fit := let t := fresh "t" in let p := fresh "p" in let H := fresh "H" in
  intros t H; simpl in H; repeat (destruct H as [H|H]; [subst t|]); try contradiction;
  intros p H; simpl in H; repeat (destruct H as [H|H]; [subst p|]); try contradiction; simpl; unfold d3; simpl; auto.
Section P.
Context {N : num} (RL : ring_laws N).
Let RT : ring_theory (@n0 N) n1 nadd nmul nsub nopp (@eq N) := RL.
Add Ring Nring : RT.
Local Open Scope num_scope.
Implicit Types M A F G L X D : tensor N.
Lemma lower_mat G k : is_mat (lower G k) k k.
Proof. split; [reflexivity|apply tabulate_wf]. Qed.
Lemma el_lower G k i j : (i < k)%nat -> (j < k)%nat -> el (lower G k) i j = if (j <=? i)%nat then el G i j else n0.
Proof. intros Hi Hj. unfold lower, el at 1. rewrite at_tabulate by (apply inb2; auto). reflexivity. Qed.

(** the other side of the pseudo-inverse *)
Lemma svd_inverse_r (S0 U s VT : tensor N) k : is_svd S0 U s VT k ->
  (forall i, (i < k)%nat -> at_ s [i] * (n1 / at_ s [i]) = n1) ->
  let Sr := mk k k (fun i j => bigsum (seq 0 k) (fun x => el VT x i * at_ (inv_all s) [x] * el U j x)) in
  mmul S0 Sr = mid k.
Proof.
  intros (HU & Hs & Hws & HV & HS & U1 & U2 & V1 & V2) Hinv Sr.
  assert (HVt := mtrans_mat VT k k HV). assert (HUt := mtrans_mat U k k HU).
  assert (ESr : Sr = mmul (mmul (mtrans VT) (mdiag k (fun i => n1 / at_ s [i]))) (mtrans U)).
  { unfold Sr. symmetry. rewrite (mmul_diag_r RL _ k k) by auto.
    rewrite (mmul_mk _ _ k k k) by (auto; apply mk_mat). apply mk_ext. intros i j Hi Hj.
    apply bigsum_ext. intros x Hx. apply in_seq in Hx. rewrite el_mk by lia.
    rewrite (el_mtrans VT k k) by (auto; lia). rewrite (el_mtrans U k k) by (auto; lia).
    rewrite (at1_inv s k) by (auto; lia). auto. }
  rewrite ESr, HS.
  set (Di := mdiag k (fun i => n1 / at_ s [i])). set (Dm := mdiag k (fun i => at_ s [i])).
  assert (HDi : is_mat Di k k) by apply mdiag_mat. assert (HDD : is_mat Dm k k) by apply mdiag_mat.
  assert (HVD := mmul_mat _ _ k k k HVt HDi). assert (HUD := mmul_mat _ _ k k k HU HDD).
  rewrite (mmul_assoc RL _ VT _ k k k k) by (auto; eapply mmul_mat; eauto).
  rewrite <- (mmul_assoc RL VT _ (mtrans U) k k k k) by auto.
  rewrite <- (mmul_assoc RL VT (mtrans VT) Di k k k k) by auto.
  rewrite V1, (mmul_id_l RL Di k k) by auto.
  rewrite (mmul_assoc RL _ Dm _ k k k k) by (auto; eapply mmul_mat; eauto).
  rewrite <- (mmul_assoc RL Dm Di _ k k k k) by auto.
  unfold Di, Dm. rewrite (mdiag_mul RL).
  assert (E : mdiag k (fun i => at_ s [i] * (n1 / at_ s [i])) = (mid k : tensor N)).
  { unfold mid. apply (mat_ext _ _ k k); try apply mdiag_mat. intros i j Hi Hj.
    rewrite !el_mdiag by auto. destruct (Nat.eqb i j); auto. }
  rewrite E, (mmul_id_l RL _ k k) by auto. auto.
Qed.

Lemma gram_sym (A : tensor N) i j : gram_at A i j = gram_at A j i.
Proof. unfold gram_at. apply bigsum_ext. intros x _. ring. Qed.
Lemma hgram_sym (W : list (tensor N)) n R : symmetric (hgram W n R) R.
Proof.
  intros i j Hi Hj. unfold hgram, el. rewrite !at_tabulate by (apply inb2; auto). cbn [nth]. unfold hgram_at. induction (others n (length W)); cbn; auto. f_equal; auto. apply gram_sym.
Qed.
Context (LA : lapack N).
Section G.
Context (G F : tensor N) (r k : nat).
Hypothesis HG : is_mat G k k.
Hypothesis HF : is_mat F r k.
Hypothesis Hsym : symmetric G k.
Hypothesis Hhalf : forall x : N, nlit (1 # 2) * (x + x) = x.
Let L := lower G k.
Let HL : is_mat L k k := lower_mat G k.

Lemma GL_ok : exists GU, sh_assign G = Ok GU /\ assign false G sij [mkTerm n1 [(G, sij)]; mkTerm (- n1) [(GU, sij)]] = Ok L.
Proof.
  unfold sh_assign. rewrite (is_mat_nrow _ _ _ HG), (is_mat_ncol _ _ _ HG), Nat.eqb_refl. eexists. split; [reflexivity|].
  rewrite (assign_lin RL G G _ n1 (- n1) k k) by (first [apply HG|reflexivity]). f_equal. symmetry. apply mat_mk; auto.
  intros i j Hi Hj. unfold L. rewrite el_lower by auto. unfold el at 3. rewrite at_tabulate by (apply inb2; auto). cbn [nth].
  destruct (Nat.leb_spec j i), (Nat.ltb_spec i j); try lia; [ring|].
  change (at_ G [i; j]) with (el G i j). change (at_ G [j; i]) with (el G j i). rewrite (Hsym j i), Hhalf by auto. ring.
Qed.
(** C["ij"] = F["ij"] - A["ik"] * B["kj"] *)
Lemma assign_fab C A B c : lens C = [r; c] -> lens F = [r; c] -> lens A = [r; k] -> lens B = [k; c] ->
  assign false C sij [mkTerm n1 [(F, sij)]; mkTerm (- n1) [(A, sik); (B, skj)]]
  = Ok (mk r c (fun i j => el F i j - bigsum (seq 0 k) (fun x => el A i x * el B x j))).
Proof.
  intros HC H1 HA HB. apply (assign_mat (d3 r c k)); auto.
  - discriminate.
  - fit.
  - intros i j Hi Hj. ev.
    rewrite (bigsum_ext (seq 0 k) _ (fun x => el A i x * el B x j)); [unfold el; ring|].
    intros x _. unfold el. ring.
Qed.
(** A["ij"] = A["ij"] + M["ik"] * B["jk"] *)
Lemma assign_amb A M B c : lens A = [r; c] -> lens M = [r; k] -> lens B = [c; k] ->
  assign false A sij [mkTerm n1 [(A, sij)]; prodt [(M, sik); (B, sjk)]]
  = Ok (mk r c (fun i j => el A i j + bigsum (seq 0 k) (fun x => el M i x * el B j x))).
Proof.
  intros HA HM HB. apply (assign_mat (d3 r c k)); auto.
  - discriminate.
  - fit.
  - intros i j Hi Hj. ev.
    rewrite (bigsum_ext (seq 0 k) _ (fun x => el M i x * el B j x)); [unfold el; ring|].
    intros x _. unfold el. ring.
Qed.
Lemma sum_split k' j (f : nat -> N) : (j < k')%nat -> bigsum (seq 0 k') f = bigsum (seq 0 (S j)) f + bigsum (seq (S j) (k' - S j)) f.
Proof. intros Hj. replace (seq 0 k') with (seq 0 (S j) ++ seq (S j) (k' - S j)). apply (bigsum_app RL). rewrite <- seq_app. f_equal. lia. Qed.
(** the sweep equation in matrix form *)
Lemma sweep_iff A A' : is_mat A r k -> is_mat A' r k ->
  (gs_sweep r k G F A A' <-> mmul (msub A' A) (mtrans L) = msub F (mmul A G)).
Proof.
  intros HA HA'. assert (HLt := mtrans_mat L k k HL). assert (HAG : is_mat (mmul A G) r k) by (eapply mmul_mat; eauto).
  assert (HD : is_mat (msub A' A) r k) by (apply msub_mat'; auto).
  assert (E : forall i j, (i < r)%nat -> (j < k)%nat ->
    el (mmul (msub A' A) (mtrans L)) i j = bigsum (seq 0 (S j)) (fun l => el A' i l * el G l j) - bigsum (seq 0 (S j)) (fun l => el A i l * el G l j)).
  { intros i j Hi Hj. rewrite (el_mmul _ _ r k k) by auto. rewrite (sum_split k j) by auto.
    rewrite (bigsum_zero RL (seq (S j) _)).
    - rewrite <- (bigsum_sub RL). transitivity (bigsum (seq 0 (S j)) (fun l => el (msub A' A) i l * el (mtrans L) l j)); [ring|].
      apply bigsum_ext. intros l Hl. apply in_seq in Hl. rewrite (el_msub _ _ r k), (el_mtrans L k k) by (auto; lia). unfold L. rewrite el_lower by lia.
      destruct (Nat.leb_spec l j); [|lia]. rewrite (Hsym j l) by lia. ring.
    - intros l Hl. apply in_seq in Hl. rewrite (el_mtrans L k k) by (auto; lia). unfold L. rewrite el_lower by lia. destruct (Nat.leb_spec l j); [lia|]. ring. }
  assert (E2 : forall i j, (i < r)%nat -> (j < k)%nat -> el (msub F (mmul A G)) i j
     = el F i j - bigsum (seq 0 (S j)) (fun l => el A i l * el G l j) - bigsum (seq (S j) (k - S j)) (fun l => el A i l * el G l j)).
  { intros i j Hi Hj. rewrite (el_msub _ _ r k) by auto. rewrite (el_mmul _ _ r k k) by auto. rewrite (sum_split k j) by auto. ring. }
  split.
  - intros [_ H]. apply (mat_ext _ _ r k); [eapply mmul_mat; eauto|apply msub_mat'; auto|]. intros i j Hi Hj. rewrite E, E2 by auto. rewrite <- (H i j) by auto. ring.
  - intros H. split; auto. intros i j Hi Hj. assert (Hij := E i j Hi Hj). rewrite H, E2 in Hij by auto.
    transitivity (bigsum (seq 0 (S j)) (fun l => el A' i l * el G l j) - bigsum (seq 0 (S j)) (fun l => el A i l * el G l j)
      + bigsum (seq 0 (S j)) (fun l => el A i l * el G l j) + bigsum (seq (S j) (k - S j)) (fun l => el A i l * el G l j)); [ring|]. rewrite <- Hij. ring.
Qed.
Theorem gs_ok A m : is_mat A r k ->
  (let '(U, s, VT) := svd LA L k in is_svd L U s VT k /\ forall i, (i < k)%nat -> at_ s [i] * (n1 / at_ s [i]) = n1) ->
  exists A', Gauss_Seidel LA A F G m = Ok A' /\ gs_sweeps r k G F m A A'.
Proof.
  intros HA Hsvd. unfold Gauss_Seidel. destruct GL_ok as (GU & E1 & E2). rewrite E1. cbn [bind]. rewrite E2. cbn [bind].
  rewrite (is_mat_ncol _ _ _ HL). destruct (svd LA L k) as [[U s] VT]. destruct Hsvd as [Hsvd Hinv].
  assert (HSr := svd_inverse_r L U s VT k Hsvd Hinv). cbv zeta in HSr. destruct Hsvd as (HU & Hs & Hws & HV & _). cbv zeta.
  rewrite (assign_usv RL L VT (inv_all s) U k k k); [|apply HL|apply HV|exact Hs|apply HU]. cbn [bind].
  set (Sr := mk k k _) in *. assert (HSm : is_mat Sr k k) by apply mk_mat.
  rewrite (is_mat_nrow _ _ _ HF), (is_mat_ncol _ _ _ HF).
  set (body := fun (_ : nat) A => _).
  assert (Hb : forall B x, is_mat B r k -> exists B', body x B = Ok B' /\ is_mat B' r k /\ gs_sweep r k G F B B').
  { intros B x HB. unfold body. rewrite (assign_fab _ B G k) by (first [reflexivity|apply HF|apply HB|apply HG]). cbn [bind].
    set (M := mk r k _). assert (HM : is_mat M r k) by apply mk_mat.
    assert (EM : M = msub F (mmul B G)).
    { apply (mat_ext _ _ r k); auto. { apply msub_mat'; auto. } intros i j Hi Hj. unfold M. rewrite el_mk by auto. rewrite (el_msub _ _ r k) by auto. rewrite (el_mmul _ _ r k k) by auto. auto. }
    rewrite (assign_amb B M Sr k) by (first [apply HB|apply HM|apply HSm]). eexists. split; [reflexivity|]. set (B' := mk r k _). assert (HB' : is_mat B' r k) by apply mk_mat.
    split; auto. apply sweep_iff; auto. assert (HLt := mtrans_mat L k k HL). assert (HSt := mtrans_mat Sr k k HSm).
    assert (ED : msub B' B = mmul M (mtrans Sr)).
    { apply (mat_ext _ _ r k); [apply msub_mat'; auto|eapply mmul_mat; eauto|]. intros i j Hi Hj. rewrite (el_msub _ _ r k) by auto. unfold B'. rewrite el_mk by auto.
      rewrite (el_mmul _ _ r k k) by auto. rewrite (bigsum_ext (seq 0 k) _ (fun x => el M i x * el (mtrans Sr) x j)); [ring|].
      intros y Hy. apply in_seq in Hy. rewrite (el_mtrans Sr k k) by (auto; lia). auto. }
    rewrite ED. rewrite (mmul_assoc RL M (mtrans Sr) (mtrans L) r k k k) by auto. rewrite <- (mtrans_mmul RL L Sr k k k) by auto. rewrite HSr.
    assert (EI : mtrans (mid k) = (mid k : tensor N)).
    { apply (mat_ext _ _ k k); try apply mtrans_mat; try apply mdiag_mat. intros i j Hi Hj. rewrite (el_mtrans _ k k) by (auto; apply mdiag_mat). unfold mid. rewrite !el_mdiag by auto.
      rewrite (Nat.eqb_sym j i). auto. }
    rewrite EI, (mmul_id_r RL M r k) by auto. exact EM. }
  clearbody body. unfold for_. rewrite Nat.sub_0_r. generalize 0%nat. revert A HA. induction m; intros A HA lo.
  - exists A. split; reflexivity.
  - destruct (Hb A lo HA) as (B & EB & HB & HS). cbn [loop]. rewrite EB. cbn [bind]. destruct (IHm B HB (S lo)) as (A' & EA & HA'). exists A'. split; auto. cbn [gs_sweeps]. eauto.
Qed.
Lemma gs_fix A : is_mat A r k -> gs_sweep r k G F A A -> mmul A G = F.
Proof.
  intros HA [_ H]. apply (mat_ext _ _ r k); auto; [eapply mmul_mat; eauto|]. intros i j Hi Hj. rewrite (el_mmul _ _ r k k) by auto. rewrite (sum_split k j) by auto. auto.
Qed.
Lemma gs_unique A B : svd_solvable (svd LA) L k -> is_mat A r k -> gs_sweep r k G F A B -> mmul A G = F -> B = A.
Proof.
  intros Hsvd HA HB E. assert (HBm : is_mat B r k) by apply HB. apply sweep_iff in HB; auto. rewrite E in HB. unfold svd_solvable in Hsvd.
  destruct (svd LA L k) as [[U s] VT]. destruct Hsvd as [Hsvd Hinv]. assert (HSr := svd_inverse_ok RL L U s VT k Hsvd Hinv). cbv zeta in HSr.
  set (Sr := mk k k _) in HSr. assert (HSm : is_mat Sr k k) by apply mk_mat. assert (HLt := mtrans_mat L k k HL). assert (HSt := mtrans_mat Sr k k HSm).
  assert (HD : is_mat (msub B A) r k) by (apply msub_mat'; auto).
  assert (EI : mtrans (mid k) = (mid k : tensor N)).
  { apply (mat_ext _ _ k k); try apply mtrans_mat; try apply mdiag_mat. intros i j Hi Hj. rewrite (el_mtrans _ k k) by (auto; apply mdiag_mat). unfold mid. rewrite !el_mdiag by auto.
    rewrite (Nat.eqb_sym j i). auto. }
  assert (E2 : msub B A = mmul (msub F F) (mtrans Sr)).
  { rewrite <- HB. rewrite (mmul_assoc RL _ (mtrans L) (mtrans Sr) r k k k) by auto. rewrite <- (mtrans_mmul RL Sr L k k k) by auto. rewrite HSr, EI. symmetry. apply (mmul_id_r RL _ r k); auto. }
  apply (mat_ext _ _ r k); auto. intros i j Hi Hj. assert (H0 : el (msub B A) i j = n0).
  { rewrite E2. rewrite (el_mmul _ _ r k k) by (auto; apply msub_mat'; auto). apply (bigsum_zero RL). intros x Hx. apply in_seq in Hx. rewrite (el_msub _ _ r k) by (auto; lia). ring. }
  rewrite (el_msub _ _ r k) in H0 by auto. transitivity (el B i j - el A i j + el A i j); [ring|]. rewrite H0. ring.
Qed.
(** the change of the objective *)
Lemma gs_energy A A' : is_mat A r k -> gs_sweep r k G F A A' ->
  quad r k G F A = quad r k G F A' + bigsum (seq 0 r) (fun i => bigsum (seq 0 k) (fun j => el G j j * ((el A' i j - el A i j) * (el A' i j - el A i j)))).
Proof.
  intros HA Hs. assert (HA' : is_mat A' r k) by apply Hs. apply sweep_iff in Hs; auto. remember (msub A' A) as D eqn:ED0 in *. assert (HD : is_mat D r k) by (subst D; apply msub_mat'; auto).
  assert (HLt := mtrans_mat L k k HL). assert (HAG : is_mat (mmul A G) r k) by (eapply mmul_mat; eauto). assert (HDG : is_mat (mmul D G) r k) by (eapply mmul_mat; eauto).
  assert (EA' : A' = madd A D).
  { apply (mat_ext _ _ r k); auto; [apply madd_mat; auto|]. intros i j Hi Hj. rewrite (el_madd _ _ r k) by auto. rewrite ED0. rewrite (el_msub _ _ r k) by auto. ring. }
  assert (EG : mtrans G = G).
  { apply (mat_ext _ _ k k); auto; [apply mtrans_mat; auto|]. intros i j Hi Hj. rewrite (el_mtrans G k k) by auto. apply Hsym; auto. }
  set (dg := mdiag k (fun j => el G j j)). assert (Hdg : is_mat dg k k) by apply mdiag_mat.
  assert (EGG : G = msub (madd (mtrans L) L) dg).
  { assert (Hml : is_mat (madd (mtrans L) L) k k) by (apply madd_mat; auto). apply (mat_ext _ _ k k); auto; [apply msub_mat'; auto|]. intros i j Hi Hj.
    rewrite (el_msub _ _ k k), (el_madd _ _ k k), (el_mtrans L k k) by auto. unfold L, dg. rewrite !el_lower, el_mdiag by auto.
    destruct (Nat.leb_spec i j), (Nat.leb_spec j i), (Nat.eqb_spec i j); try lia; subst; try ring. rewrite (Hsym i j) by auto. ring. }
  assert (EQ : bigsum (seq 0 r) (fun i => bigsum (seq 0 k) (fun j => el G j j * ((el A' i j - el A i j) * (el A' i j - el A i j)))) = minner r k (mmul D dg) D).
  { unfold minner. apply bigsum_ext. intros i Hi. apply in_seq in Hi. apply bigsum_ext. intros j Hj. apply in_seq in Hj. unfold dg. rewrite (mmul_diag_r RL D r k) by auto.
    rewrite el_mk by lia. rewrite ED0. rewrite !(el_msub A' A r k) by (auto; lia). ring. }
  rewrite EQ. replace (quad r k G F A') with (quad r k G F (madd A D)) by (rewrite <- EA'; reflexivity). unfold quad. rewrite (mmul_add_l RL A D G r k k) by auto.
  rewrite !(minner_add RL r k) by auto. rewrite (minner_sym RL r k (mmul A G) (madd A D)), (minner_sym RL r k (mmul D G) (madd A D)), !(minner_add RL r k) by auto.
  assert (E1 : minner r k A (mmul D G) = minner r k (mmul A G) D) by (rewrite (minner_mul RL r k k A G D) by auto; rewrite EG; auto).
  assert (E2 : minner r k D (mmul D G) = minner r k (mmul D (mtrans L)) D + minner r k (mmul D (mtrans L)) D - minner r k (mmul D dg) D).
  { assert (H1 : is_mat (mmul D (mtrans L)) r k) by (eapply mmul_mat; eauto). assert (H2 : is_mat (mmul D L) r k) by (eapply mmul_mat; eauto). assert (H3 : is_mat (mmul D dg) r k) by (eapply mmul_mat; eauto).
    assert (EDG : mmul D G = msub (madd (mmul D (mtrans L)) (mmul D L)) (mmul D dg)).
    { apply (mat_ext _ _ r k); auto; [apply msub_mat', madd_mat; auto|]. intros i j Hi Hj. rewrite (el_msub _ _ r k), (el_madd _ _ r k) by (auto; apply madd_mat; auto).
      rewrite !(el_mmul D _ r k k) by auto. rewrite <- (bigsum_add RL), <- (bigsum_sub RL). apply bigsum_ext. intros x Hx. apply in_seq in Hx. rewrite EGG at 1.
      rewrite (el_msub _ _ k k), (el_madd _ _ k k) by (auto; try lia; apply madd_mat; auto). ring. }
    rewrite EDG. rewrite (minner_sym RL r k D). rewrite (minner_sub RL r k), (minner_add RL r k) by (auto; apply madd_mat; auto).
    rewrite (minner_mul RL r k k D L D) by auto. rewrite (minner_sym RL r k D (mmul D (mtrans L))). ring. }
  assert (E3 : minner r k (mmul D (mtrans L)) D = minner r k F D - minner r k (mmul A G) D) by (rewrite Hs; apply (minner_sub RL r k); auto).
  rewrite (minner_sym RL r k D (mmul A G)), (minner_sym RL r k D (mmul D G)), (minner_sym RL r k (mmul D G) D), E1, E2, E3, (minner_sym RL r k D F), (minner_sym RL r k A (mmul A G)). ring.
Qed.
End G.
End P.
