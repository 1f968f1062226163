(** The operator table, the perturbed MTTKRP and the pairwise-perturbation sweep *)
From Coq Require Import List ZArith Lia Bool Arith Permutation Ring.
From Verif Require Import Base Num Tensor Spec MCommon MCP PBase PTensor PSum PMttkrp PPart PMat PKhatri PGrad PMatAlg PResid
  PSolve PTree PDT PDTSweep PALS PDrivers PPP.
Import ListNotations.

Section P.
Context {N : num} (RL : ring_laws N).
Let RT : ring_theory (@n0 N) n1 nadd nmul nsub nopp (@eq N) := RL.
Add Ring NringPP : RT.
Local Open Scope num_scope.
Context (V : tensor N) (R : nat).
Let o := order V.

(** ** spec-level: replacing one factor *)
Lemma mttkrp_split1 W D n m j k : (n < o)%nat -> (m < o)%nat -> m <> n -> length W = o ->
  mttkrp_at V (setf W m D) n j k =
  bigsum (seq 0 (nth m (lens V) 0%nat)) (fun a => partial_at V W [m; n] [a; j] k * el D a k).
Proof.
  intros Hn Hm Hne HL. unfold mttkrp_at. rewrite (bigsum_filter RL). rewrite (sum_fibers RL (lens V) m) by auto.
  apply bigsum_ext. intros a _. unfold partial_at. rewrite !(bigsum_filter RL), <- (bigsum_mul_r RL).
  apply bigsum_ext. intros x _. cbn [combine forallb fst snd]. rewrite andb_true_r. fold o.
  destruct (Nat.eqb_spec (nth m x 0%nat) a); cbn [andb].
  2:{ ring. }
  destruct (Nat.eqb (nth n x 0%nat) j); [|ring].
  rewrite (bigprod_perm RL (others n o) (m :: outside [m; n] o)).
  - cbn [bigprod fold_right]. rewrite fac_setf by lia. rewrite Nat.eqb_refl.
    fold (bigprod (N:=N) (outside [m; n] o) (fun m0 => el (fac (setf W m D) m0) (nth m0 x 0%nat) k)).
    rewrite (bigprod_ext (outside [m; n] o) _ (fun m0 => el (fac W m0) (nth m0 x 0%nat) k)).
    + subst a. ring.
    + intros q Hq. apply outside_in in Hq. rewrite fac_setf by lia. destruct (Nat.eqb_spec q m); auto. subst. exfalso. apply Hq. left; auto.
  - apply NoDup_Permutation; [apply others_nodup| |].
    + constructor; [|apply outside_nodup]. rewrite outside_in. cbn. tauto.
    + intros q. cbn [In]. rewrite others_in, outside_in. cbn [In]. destruct (Nat.eq_dec m q); [subst; tauto|]. intuition lia.
Qed.
Lemma partial_swap W m n a j k : partial_at V W [m; n] [a; j] k = partial_at V W [n; m] [j; a] k.
Proof.
  unfold partial_at. cbn [combine].
  assert (Ef : forall l : list (list nat), filter (fun x => forallb (fun p => Nat.eqb (nth (fst p) x 0%nat) (snd p)) [(m, a); (n, j)]) l
     = filter (fun x => forallb (fun p => Nat.eqb (nth (fst p) x 0%nat) (snd p)) [(n, j); (m, a)]) l).
  { intros l. apply filter_ext. intros x. cbn. rewrite !andb_true_r. apply andb_comm. }
  rewrite Ef. apply bigsum_ext. intros x _. f_equal. f_equal. unfold outside. apply filter_ext. intros q. cbn. rewrite !orb_false_r, orb_comm. auto.
Qed.
Lemma mttkrp_split2 W D n m j k : (n < o)%nat -> (m < o)%nat -> m <> n -> length W = o ->
  mttkrp_at V (setf W m D) n j k =
  bigsum (seq 0 (nth m (lens V) 0%nat)) (fun a => partial_at V W [n; m] [j; a] k * el D a k).
Proof. intros. rewrite mttkrp_split1 by auto. apply bigsum_ext. intros. rewrite partial_swap. auto. Qed.

(** ** the table *)
Section Table.
Hypothesis Ho : (1 <= o <= 31)%nat.
Lemma node_partial W ms T : asc o ms -> ppnode V R W ms T -> T = partial_mttkrp V W (outside ms o) R.
Proof.
  intros Ha H. assert (E : T = partial_mttkrp V W (outside ms o) (dV (lens V) ch_star R ch_star)); [|rewrite (DT_rk V R) in E; exact E].
  apply (rep_partial RL (dV (lens V) ch_star R) chr ch_star o (DT_inj V Ho) (DT_fresh V Ho) V W (outside ms o) ms); auto.
  - apply outside_nodup.
  - intros m Hm. apply outside_in in Hm. tauto.
  - apply (DT_letters V R Ho).
  - rewrite outside_outside by auto. auto.
Qed.
Lemma table_entry W mp rest T : asc o rest -> pptable V R W mp -> mp (map chr (outside rest o)) = Some T ->
  T = partial_mttkrp V W rest R.
Proof.
  intros Ha Ht E. destruct (Ht _ _ E) as (ms & Ham & _ & Ec & Hn).
  apply (asc_chr_inj V Ho) in Ec; auto; [|apply outside_asc]. subst ms.
  apply node_partial in Hn; [|apply outside_asc]. rewrite outside_outside in Hn by auto. auto.
Qed.
Lemma asc_all_lt rest : asc o rest -> forall m, In m rest -> (m < o)%nat.
Proof. intros H m. apply asc_lt; auto. Qed.

(** what the construction has put in the table *)
Definition has (mp : smap (tensor N)) (rest : list nat) : Prop := mp (map chr (outside rest o)) <> None.

Lemma build_pairs same W : factors_ok V W R -> (3 <= o <= 10)%nat ->
  exists mp, for_ 0 o (fun ii mp =>
      for_ (ii + 1) o (fun jj mp =>
        s <- seq_except2 o (lbuf o) ii jj ;;
        Build_mttkrp_map (o + 1) same V W mp s) mp) sempty = Ok mp /\ pptable V R W mp /\
    forall i j, (i < j)%nat -> (j < o)%nat -> has mp [i; j].
Proof.
  intros HW H3.
  destruct (for_inv (fun ii mp => pptable V R W mp /\ forall i j, (i < ii)%nat -> (i < j)%nat -> (j < o)%nat -> has mp [i; j])
   (fun ii mp => for_ (ii + 1) o (fun jj mp => s <- seq_except2 o (lbuf o) ii jj ;; Build_mttkrp_map (o + 1) same V W mp s) mp)
   0 o sempty) as (mp & E & H1 & H2).
  - lia.
  - split; [intros s T E; discriminate|intros; lia].
  - intros ii mp Hii (Ht & Hh).
    destruct (for_inv (fun jj mp => pptable V R W mp /\ (forall i j, (i < ii)%nat -> (i < j)%nat -> (j < o)%nat -> has mp [i; j]) /\
        forall j, (ii < j)%nat -> (j < jj)%nat -> has mp [ii; j])
     (fun jj mp => s <- seq_except2 o (lbuf o) ii jj ;; Build_mttkrp_map (o + 1) same V W mp s) (ii + 1) o mp) as (mp' & E & H1 & H2 & H4).
    + lia.
    + split; auto. split; auto. intros; lia.
    + intros jj mp1 Hjj (Ht1 & Hh1 & Hh2). rewrite except2_ok by lia. cbn [bind].
      assert (Hl : length (outside [ii; jj] o) = (o - 2)%nat) by (rewrite outside_length by (apply asc_two; lia); auto).
      destruct (Build_ok RL V R Ho same W HW (o + 1) (outside [ii; jj] o) mp1) as (mp2 & E2 & Ht2 & (T & HT) & Hm); auto; try (fold o; lia).
      { apply outside_asc. }
      rewrite E2. eexists; split; [reflexivity|]. split; auto. split.
      * intros i j Hi Hj Hjo. apply Hm. apply Hh1; auto.
      * intros j Hj Hjl. destruct (Nat.eq_dec j jj) as [->|].
        -- unfold has. rewrite HT. discriminate.
        -- apply Hm. apply Hh2; lia.
    + exists mp'. split; auto. split; auto. intros i j Hi Hij Hj. destruct (Nat.eq_dec i ii) as [->|]; [apply H4; lia|apply H2; lia].
  - exists mp. split; auto. split; auto. intros. apply H2; lia.
Qed.

Theorem build_operators_ok same W : factors_ok V W R -> (3 <= o <= 9)%nat ->
  exists mp, build_operators same V W (lbuf o) = Ok mp /\ pptable V R W mp /\
    (forall i j, (i < j)%nat -> (j < o)%nat -> has mp [i; j]) /\ (forall i, (i < o)%nat -> has mp [i]).
Proof.
  intros HW H3. unfold build_operators. fold o.
  destruct (build_pairs same W HW ltac:(lia)) as (mp & E & Ht & Hp).
  rewrite E. cbn [bind].
  destruct (for_inv (fun ii mp => pptable V R W mp /\ (forall i j, (i < j)%nat -> (j < o)%nat -> has mp [i; j]) /\
      forall i, (i < ii)%nat -> has mp [i])
   (fun ii mp => s <- seq_except1 o (lbuf o) ii ;; Build_mttkrp_map (o + 1) same V W mp s) 0 o mp) as (mp' & E' & H1 & H2 & H4).
  - lia.
  - split; auto. split; auto. intros; lia.
  - intros ii mp1 Hii (Ht1 & Hh1 & Hh2). rewrite except1_ok by lia. cbn [bind].
    assert (Hl : length (outside [ii] o) = (o - 1)%nat) by (rewrite outside_length by (apply asc_one; lia); auto).
    destruct (Build_ok RL V R Ho same W HW (o + 1) (outside [ii] o) mp1) as (mp2 & E2 & Ht2 & (T & HT) & Hm); auto; try (fold o; lia).
    { apply outside_asc. }
    rewrite E2. eexists; split; [reflexivity|]. split; auto. split.
    + intros i j Hi Hj. apply Hm. apply Hh1; auto.
    + intros j Hj. destruct (Nat.eq_dec j ii) as [->|].
      * unfold has. rewrite HT. discriminate.
      * apply Hm. apply Hh2; lia.
  - exists mp'. auto.
Qed.
End Table.

(** ** the perturbed MTTKRP *)
Ltac ev := cbv -[nadd nmul nopp nsub n0 n1 bigsum at_ el seq car gram_at].
Ltac fit := let t := fresh "t" in let p := fresh "p" in let H := fresh "H" in
  intros t H; simpl in H; repeat (destruct H as [H|H]; [subst t|]); try contradiction;
  intros p H; simpl in H; repeat (destruct H as [H|H]; [subst p|]); try contradiction; simpl; unfold d3; simpl; auto.
Lemma assign_pp_left (M T D : tensor N) a r c : lens M = [r; c] -> lens T = [a; r; c] -> lens D = [a; c] ->
  assign true M sjk [prodt [(T, [ch_i; ch_j; ch_k]); (D, sik)]]
  = Ok (mk r c (fun j k => el M j k + bigsum (seq 0 a) (fun x => at_ T [x; j; k] * el D x k))).
Proof.
  intros HM HT HD. apply (assign_mat (d3 a r c)); auto.
  - discriminate.
  - fit.
  - intros i j Hi Hj. ev. f_equal. rewrite (Rmul_1_l RL). apply bigsum_ext. intros x _. unfold el. ring.
Qed.
Lemma assign_pp_right (M T D : tensor N) a r c : lens M = [r; c] -> lens T = [r; a; c] -> lens D = [a; c] ->
  assign true M sik [prodt [(T, [ch_i; ch_j; ch_k]); (D, sjk)]]
  = Ok (mk r c (fun j k => el M j k + bigsum (seq 0 a) (fun x => at_ T [j; x; k] * el D x k))).
Proof.
  intros HM HT HD. apply (assign_mat (d3 r a c)); auto.
  - discriminate.
  - fit.
  - intros i j Hi Hj. ev. f_equal. rewrite (Rmul_1_l RL). apply bigsum_ext. intros x _. unfold el. ring.
Qed.
Lemma at_partial2 W m n a j k : (a < nth m (lens V) 0)%nat -> (j < nth n (lens V) 0)%nat -> (k < R)%nat ->
  at_ (partial_mttkrp V W [m; n] R) [a; j; k] = partial_at V W [m; n] [a; j] k.
Proof.
  intros. unfold partial_mttkrp. cbn [map app length firstn]. rewrite at_tabulate; auto.
  repeat constructor; auto.
Qed.
Lemma el_mttkrp W n i k : (i < nth n (lens V) 0)%nat -> (k < R)%nat -> el (mttkrp V W n R) i k = mttkrp_at V W n i k.
Proof. intros. unfold el, mttkrp. rewrite at_tabulate by (apply inb2; auto). auto. Qed.

Theorem pp_M_ok mp W0 dW n : (2 <= o <= 31)%nat -> (n < o)%nat -> length W0 = o -> mats_ok V dW R ->
  (forall i, (i < o)%nat -> mp (map chr (outside [i] o)) = Some (mttkrp V W0 i R)) ->
  (forall i j, (i < j)%nat -> (j < o)%nat -> mp (map chr (outside [i; j] o)) = Some (partial_mttkrp V W0 [i; j] R)) ->
  pp_M V mp (lbuf o) dW (nth n (lens V) 0%nat) R n = Ok (pp_mttkrp V W0 dW n R).
Proof.
  intros Ho Hn HL HD H1 H2. unfold pp_M. fold o. rewrite except1_ok by lia. cbn [bind].
  assert (Et1 : forall i, (i < o)%nat -> tget mp (map chr (outside [i] o)) = mttkrp V W0 i R) by (intros; unfold tget; rewrite H1; auto).
  assert (Et2 : forall i j, (i < j)%nat -> (j < o)%nat -> tget mp (map chr (outside [i; j] o)) = partial_mttkrp V W0 [i; j] R)
    by (intros; unfold tget; rewrite H2; auto).
  rewrite Et1 by auto. set (r := nth n (lens V) 0%nat).
  unfold prodt. rewrite (assign_scal RL _ _ n1 r R) by reflexivity. cbn [bind].
  set (T := fun m i k => mttkrp_at V (setf W0 m (fac dW m)) n i k).
  set (acc := fun (ms : list nat) => mk r R (fun i k => mttkrp_at V W0 n i k + bigsum ms (fun m => T m i k)) : tensor N).
  destruct (for_inv (fun ii M => M = acc (seq 0 ii))
     (fun ii M => s <- seq_except2 o (lbuf o) ii n ;; D <- lget dW ii ;;
        assign true M sjk [prodt [(tget mp s, [ch_i; ch_j; ch_k]); (D, sik)]]) 0 n
     (mk r R (fun i j => n1 * el (mttkrp V W0 n R) i j))) as (M1 & E1 & HM1).
  - lia.
  - unfold acc. apply mk_ext. intros i j Hi Hj. rewrite el_mttkrp by auto. cbn. ring.
  - intros ii M Hii ->. rewrite except2_ok by lia. cbn [bind]. rewrite (lget_ok dW ii tnil) by (destruct HD as [-> _]; fold o; lia).
    cbn [bind]. rewrite Et2 by lia. fold (fac dW ii).
    assert (HDi := proj2 HD ii ltac:(fold o; lia)).
    rewrite (assign_pp_left _ _ _ (nth ii (lens V) 0%nat) r R); [|reflexivity|reflexivity|apply HDi].
    eexists; split; [reflexivity|]. unfold acc. apply mk_ext. intros i k Hi Hk. rewrite el_mk by auto.
    rewrite seq_S. cbn [Nat.add]. rewrite (bigsum_app RL). cbn [bigsum fold_right]. unfold T at 3.
    rewrite mttkrp_split1 by (auto; lia). fold (bigsum (N:=N) (seq 0 ii) (fun m => T m i k)).
    rewrite (bigsum_ext (seq 0 (nth ii (lens V) 0%nat)) _ (fun a => partial_at V W0 [ii; n] [a; i] k * el (fac dW ii) a k)).
    2:{ intros a Ha. apply in_seq in Ha. rewrite at_partial2 by (auto; lia). auto. }
    ring.
  - unfold prodt in E1. rewrite E1. cbn [bind]. subst M1.
    destruct (for_inv (fun ii M => M = acc (seq 0 n ++ seq (n + 1) (ii - (n + 1))))
     (fun ii M => s <- seq_except2 o (lbuf o) n ii ;; D <- lget dW ii ;;
        assign true M sik [prodt [(tget mp s, [ch_i; ch_j; ch_k]); (D, sjk)]]) (n + 1) o
     (acc (seq 0 n))) as (M2 & E2 & HM2).
    + lia.
    + rewrite Nat.sub_diag. cbn [seq]. rewrite app_nil_r. auto.
    + intros ii M Hii ->. rewrite except2_ok by lia. cbn [bind]. rewrite (lget_ok dW ii tnil) by (destruct HD as [-> _]; fold o; lia).
      cbn [bind]. rewrite Et2 by lia. fold (fac dW ii).
      assert (HDi := proj2 HD ii ltac:(fold o; lia)).
      rewrite (assign_pp_right _ _ _ (nth ii (lens V) 0%nat) r R); [|reflexivity|reflexivity|apply HDi].
      eexists; split; [reflexivity|]. unfold acc. apply mk_ext. intros i k Hi Hk. rewrite el_mk by auto.
      replace (S ii - (n + 1))%nat with (S (ii - (n + 1))) by lia. rewrite seq_S, app_assoc.
      replace (n + 1 + (ii - (n + 1)))%nat with ii by lia.
      rewrite (bigsum_app RL _ [ii]). cbn [bigsum fold_right].
      fold (bigsum (N:=N) (seq 0 n ++ seq (n + 1) (ii - (n + 1))) (fun m => T m i k)). unfold T at 3.
      rewrite mttkrp_split2 by (auto; lia).
      rewrite (bigsum_ext (seq 0 (nth ii (lens V) 0%nat)) _ (fun a => partial_at V W0 [n; ii] [i; a] k * el (fac dW ii) a k)).
      2:{ intros a Ha. apply in_seq in Ha. rewrite at_partial2 by (auto; lia). auto. }
      ring.
    + unfold prodt in E2. rewrite E2. subst M2. f_equal. unfold pp_mttkrp. fold o r. unfold acc. unfold mk. apply tabulate_ext.
      intros idx Hidx. apply inb2_inv in Hidx as (i & k & -> & Hi & Hk). cbn [nth].
      change (at_ (mttkrp V W0 n R) [i; k]) with (el (mttkrp V W0 n R) i k). rewrite el_mttkrp by auto. f_equal.
      rewrite <- outside_one, outside1 by auto. replace (o - n - 1)%nat with (o - (n + 1))%nat by lia.
      apply bigsum_ext. intros m _. change (at_ ?A [i; k]) with (el A i k). rewrite el_mttkrp by auto. auto.
Qed.

(** ** the sweep *)
Context (LA : lapack N).
Hypothesis Hsh : svd_shaped (svd LA).
Let solve := pinv_solve (svd LA) R.
Definition pptab (mp : smap (tensor N)) (W0 : list (tensor N)) : Prop :=
  (forall i, (i < o)%nat -> mp (map chr (outside [i] o)) = Some (mttkrp V W0 i R)) /\
  (forall i j, (i < j)%nat -> (j < o)%nat -> mp (map chr (outside [i; j] o)) = Some (partial_mttkrp V W0 [i; j] R)).
Definition pp_grad lambda W0 (W dW : list (tensor N)) n : tensor N :=
  msub (mmul (fac W n) (als_lhs lambda W R n)) (pp_mttkrp V W0 dW n R).
Lemma pp_mttkrp_mat W0 dW n : is_mat (pp_mttkrp V W0 dW n R : tensor N) (nth n (lens V) 0%nat) R.
Proof. split; [reflexivity|apply tabulate_wf]. Qed.
Lemma pp_step_mat lambda ratio W0 W dW n : is_mat (pp_step solve lambda ratio V W0 R W dW n) (nth n (lens V) 0%nat) R.
Proof.
  apply mscal_mat, msub_mat'. apply (solve_mat RL LA R Hsh); [apply pp_mttkrp_mat|apply lhs_mat].
Qed.
Lemma add_regul_ok (lambda : N) (W : list (tensor N)) i : (neqb lambda n0 = true -> lambda = n0) ->
  add_regul lambda (hgram W i R) (mscal lambda (mid R)) = Ok (als_lhs lambda W R i).
Proof.
  intros Hl. unfold add_regul. destruct (neqb lambda n0); cbn [negb].
  - rewrite Hl by auto. rewrite (lhs_zero RL). auto.
  - rewrite (addto_madd RL _ _ R R); [|apply hgram_mat|apply mscal_mat, mdiag_mat]. auto.
Qed.
Theorem PP_mode_ok mp (W0 W G dW : list (tensor N)) Sm (lambda ratio : N) i : (2 <= o <= 31)%nat -> (i < o)%nat ->
  (neqb lambda n0 = true -> lambda = n0) -> (neqb ratio n1 = true -> ratio = n1) ->
  factors_ok V W0 R -> factors_ok V W R -> mats_ok V G R -> mats_ok V dW R -> lens Sm = [R; R] -> pptab mp W0 ->
  PP_mode LA V mp W0 lambda ratio (mscal lambda (mid R)) (lbuf o) i (W, G, dW, Sm, lbuf o)
  = Ok (fst (pp_update solve lambda ratio V W0 R (W, dW) i), setf G i (pp_grad lambda W0 W dW i),
        snd (pp_update solve lambda ratio V W0 R (W, dW) i), als_lhs lambda W R i, lbuf o).
Proof.
  intros Ho Hi Hl Hr HW0 HW HG HD HSm (H1 & H2). unfold PP_mode. fold o. rewrite swap_lbuf by auto. cbn [bind].
  rewrite (W_lget LA V R W i) by auto. cbn [bind]. destruct (W_dims V R W i HW Hi) as [Er Hc]. rewrite Hc, Er.
  assert (Eix := index_ok LA V R i Ho Hi R). fold o in Eix. rewrite Eix. clear Eix. cbn [bind].
  rewrite (pp_M_ok mp W0 dW i) by (auto; apply HW0). cbn [bind].
  assert (Egr := gram_ok RL V R Sm W i ltac:(fold o; lia) HW Hi HSm). fold o in Egr. rewrite Egr. clear Egr. cbn [bind].
  rewrite add_regul_ok by auto. cbn [bind].
  rewrite (F_lget LA V R G i) by auto. cbn [bind].
  rewrite (gradsub_ok RL _ _ _ _ (nth i (lens V) 0%nat) R); [|apply pp_mttkrp_mat|apply lhs_mat|apply HW; auto|apply HG; auto].
  cbn [bind]. rewrite lput_ok by (destruct HG as (-> & _); auto). cbn [bind].
  rewrite (W_lget LA V R W0 i) by auto. cbn [bind]. rewrite (F_lget LA V R dW i) by auto. cbn [bind].
  destruct (SVD_solve_pinv RL LA (pp_mttkrp V W0 dW i R) (fac W i) (als_lhs lambda W R i) (nth i (lens V) 0%nat) R) as [E2 Hm]; auto.
  { apply pp_mttkrp_mat. } { apply HW; auto. } { apply lhs_mat. }
  rewrite (SVD_solve_mod_ok RL LA _ _ _ _ _ (nth i (lens V) 0%nat) R ratio (solve (pp_mttkrp V W0 dW i R) (als_lhs lambda W R i)));
    [|apply HW; auto|apply HW0; auto|apply HD; auto|exact E2|exact Hm|auto].
  cbn [bind]. rewrite lput_ok by (destruct HW as (_ & -> & _); auto). cbn [bind].
  rewrite lput_ok by (destruct HD as (-> & _); auto). cbn [bind]. rewrite swap_back by auto. cbn [bind]. reflexivity.
Qed.
Lemma pp_upto_S lambda ratio W0 st n : pp_upto solve lambda ratio V W0 R (S n) st
  = pp_update solve lambda ratio V W0 R (pp_upto solve lambda ratio V W0 R n st) n.
Proof. unfold pp_upto. rewrite seq_S, fold_left_app. reflexivity. Qed.
Lemma setf_mats F i A : mats_ok V F R -> (i < o)%nat -> is_mat A (nth i (lens V) 0%nat) R -> mats_ok V (setf F i A) R.
Proof.
  intros [HL HF] Hi HA. split; [rewrite setf_length; auto|]. intros m Hm. fold o in Hm, HL. rewrite fac_setf by lia.
  destruct (Nat.eqb_spec m i); subst; auto.
Qed.
Lemma pp_upto_ok lambda ratio W0 W dW n : factors_ok V W0 R -> factors_ok V W R -> mats_ok V dW R -> (n <= o)%nat ->
  factors_ok V (fst (pp_upto solve lambda ratio V W0 R n (W, dW))) R /\ mats_ok V (snd (pp_upto solve lambda ratio V W0 R n (W, dW))) R.
Proof.
  intros HW0 HW HD. induction n; intros Hn; [split; auto|]. rewrite pp_upto_S.
  destruct (pp_upto solve lambda ratio V W0 R n (W, dW)) as [W' dW']. cbn [fst snd] in *. destruct IHn as [IH1 IH2]; [lia|].
  unfold pp_update. cbn [fst snd]. split.
  - apply setf_factors; auto. apply madd_mat. apply HW0. fold o. lia.
  - apply setf_mats; auto. apply pp_step_mat.
Qed.
Theorem PP_sweep_ok mp (W0 W G dW : list (tensor N)) Sm (lambda ratio : N) : (2 <= o <= 31)%nat ->
  (neqb lambda n0 = true -> lambda = n0) -> (neqb ratio n1 = true -> ratio = n1) ->
  factors_ok V W0 R -> factors_ok V W R -> mats_ok V G R -> mats_ok V dW R -> lens Sm = [R; R] -> pptab mp W0 ->
  exists Sm', PP_sweep LA V mp W0 lambda ratio (mscal lambda (mid R)) (lbuf o) W G dW Sm (lbuf o)
  = Ok (rescaled (fst (pp_upto solve lambda ratio V W0 R o (W, dW))), pp_grads solve lambda ratio V W0 R (W, dW),
        snd (pp_upto solve lambda ratio V W0 R o (W, dW)), Sm', lbuf o) /\ lens Sm' = [R; R].
Proof.
  intros Ho Hl Hr HW0 HW HG HD HSm Htab. unfold PP_sweep. fold o.
  set (U := fun n => pp_upto solve lambda ratio V W0 R n (W, dW)).
  destruct (for_inv (fun i (st : (list (tensor N) * list (tensor N) * list (tensor N) * tensor N * buf Z)%type) => exists Gi Sm', st = (fst (U i), Gi, snd (U i), Sm', lbuf o) /\ mats_ok V Gi R /\ lens Sm' = [R; R] /\ (forall n, (n < i)%nat -> fac Gi n = pp_grad lambda W0 (fst (U n)) (snd (U n)) n))
     (PP_mode LA V mp W0 lambda ratio (mscal lambda (mid R)) (lbuf o)) 0 o (W, G, dW, Sm, lbuf o))
     as (st & E & Gi & Sm' & -> & HGi & HS' & Hgr).
  - lia.
  - exists G, Sm. split; [reflexivity|]. split; auto. split; auto. intros; lia.
  - intros i st Hi (Gi & Sm' & -> & HGi & HS' & Hgr).
    destruct (pp_upto_ok lambda ratio W0 W dW i) as [HU1 HU2]; auto; [lia|].
    rewrite (PP_mode_ok mp W0 (fst (U i)) Gi (snd (U i)) Sm' lambda ratio i) by (auto; lia).
    rewrite <- surjective_pairing. unfold U at 1 4. rewrite <- pp_upto_S. fold (U (S i)).
    eexists. split; [reflexivity|]. eexists _, _. split; [reflexivity|]. split; [|split].
    + apply setf_mats; auto; [lia|]. apply msub_mat', (mmul_mat _ _ _ R R); [|apply lhs_mat]. apply HU1. fold o. lia.
    + reflexivity.
    + intros n Hn. destruct HGi as [HGl _]. fold o in HGl. rewrite fac_setf by lia.
      destruct (Nat.eqb_spec n i); subst; auto. apply Hgr. lia.
  - rewrite E. cbn [bind]. destruct (pp_upto_ok lambda ratio W0 W dW o) as [HU1 HU2]; auto.
    assert (EN := Normalize_rescaled RL V R (fst (U o)) HU1). fold o in EN. rewrite EN. cbn [bind].
    exists Sm'. split; auto. destruct HGi as [HGl _]. fold o in HGl.
    enough (EG : Gi = pp_grads solve lambda ratio V W0 R (W, dW)) by (rewrite EG; reflexivity).
    unfold pp_grads. apply nth_ext with (d:=tnil) (d':=tnil).
    + rewrite map_length, seq_length. auto.
    + rewrite HGl. intros n Hn. fold (fac Gi n). rewrite Hgr by auto.
      rewrite (nth_map_lt _ _ _ 0%nat) by (rewrite seq_length; auto). rewrite nth_seq by auto. cbn [Nat.add].
      unfold U. destruct (pp_upto solve lambda ratio V W0 R n (W, dW)). reflexivity.
Qed.
Theorem build_operators_tab same W : factors_ok V W R -> (3 <= o <= 9)%nat ->
  exists mp, build_operators same V W (lbuf o) = Ok mp /\ pptab mp W /\ (forall s T, mp s = Some T -> exists ms, NoDup ms /\ (forall m, In m ms -> (m < o)%nat) /\ s = map chr (outside ms o) /\ T = partial_mttkrp V W ms R).
Proof.
  intros HW H3. destruct (build_operators_ok ltac:(lia) same W HW H3) as (mp & E & Ht & Hp & H1). exists mp. split; auto.
  assert (He : forall rest, asc o rest -> has mp rest -> mp (map chr (outside rest o)) = Some (partial_mttkrp V W rest R)).
  { intros rest Ha Hh. unfold has in Hh. destruct (mp (map chr (outside rest o))) as [T|] eqn:ET; [|contradiction].
    f_equal. apply (table_entry ltac:(lia) W mp rest T); auto. }
  split; [split|].
  - intros i Hi. rewrite (He [i]); auto; [|apply asc_one; auto]. f_equal. apply partial_one.
  - intros i j Hi Hj. apply He; auto. apply asc_two; auto.
  - intros s T ET. destruct (Ht _ _ ET) as (ms & Ham & Hl & Ec & Hn).
    exists (outside ms o). split; [apply outside_nodup|]. split; [intros m Hm; apply outside_in in Hm; tauto|].
    split; [rewrite outside_outside by auto; auto|]. apply node_partial; auto. lia.
Qed.
End P.
