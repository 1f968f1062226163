(** KhatriRaoProduct *)
From Coq Require Import List ZArith Lia Bool Arith Permutation Ring.
From Verif Require Import Base Num Tensor Spec Spec10 MCommon PBase PTensor PSum PMttkrp PMat PKhatri PMatAlg PKhatriBad.
Import ListNotations.

Lemma Forall2_len {A B} (R : A -> B -> Prop) l l' : Forall2 R l l' -> length l = length l'.
Proof. induction 1; cbn; auto. Qed.
Section P.
Context {N : num} (RL : ring_laws N).
Let RT : ring_theory (@n0 N) n1 nadd nmul nsub nopp (@eq N) := RL.
Add Ring Nring : RT.
Local Open Scope num_scope.

(** the letters of the front tensor and of the result of step j *)
Definition ksq (j : nat) : str := map chr (seq 0 j) ++ [ch_k].
Definition ksf (j : nat) : str := map chr (seq 0 j) ++ [ch_j; ch_k].
Lemma lets_lt j c : (j <= 9)%nat -> In c (map chr (seq 0 j)) -> (97 <= c < 106)%Z.
Proof. intros Hj Hc. apply in_map_iff in Hc as (m & <- & Hm). apply in_seq in Hm. rewrite chr_small by lia. lia. Qed.
Lemma ksf_nodup j : (j <= 9)%nat -> NoDup (ksf j).
Proof.
  intros Hj. unfold ksf. apply NoDup_app_intro.
  - apply NoDup_map_inj; [|apply seq_NoDup]. intros x y Hx Hy. apply in_seq in Hx, Hy. apply chr_inj; lia.
  - repeat constructor; cbn; intuition discriminate.
  - intros x Hx Hk. apply lets_lt in Hx; auto. cbn in Hk. unfold ch_j, ch_k in Hk. lia.
Qed.

Context (As : list (tensor N)) (K : nat).
Hypothesis HA : forall m, (m < length As)%nat -> exists r, is_mat (fac As m) r K.
Let rows m := nrow (fac As m).
(** dimensions in step j *)
Definition dK (j : nat) (c : Z) : nat := if Z.eqb c ch_k then K else if Z.eqb c ch_j then rows j else rows (Z.to_nat (c - 97)).
Lemma dK_chr j m : (m < 9)%nat -> dK j (chr m) = rows m.
Proof.
  intros Hm. unfold dK. rewrite chr_small by lia.
  destruct (Z.eqb_spec (97 + Z.of_nat m) ch_k); [unfold ch_k in *; lia|]. destruct (Z.eqb_spec (97 + Z.of_nat m) ch_j); [unfold ch_j in *; lia|]. f_equal. lia.
Qed.
Lemma rows_firstn j : (j <= length As)%nat -> map nrow (firstn j As) = map rows (seq 0 j).
Proof.
  intros Hj. apply nth_ext with (d:=0%nat) (d':=0%nat); rewrite !map_length, firstn_length_le, ?seq_length by auto; auto.
  intros i Hi. rewrite (nth_map_lt _ _ _ tnil) by (rewrite firstn_length_le; auto). rewrite (nth_map_lt _ _ _ 0%nat) by (rewrite seq_length; auto).
  rewrite nth_firstn, nth_seq by auto. reflexivity.
Qed.
Lemma fac_firstn j m : (m < j)%nat -> fac (firstn j As) m = fac As m.
Proof. intros. unfold fac. apply nth_firstn; auto. Qed.
Lemma dK_ksq j : (j <= 9)%nat -> (j <= length As)%nat -> map (dK j) (ksq j) = map nrow (firstn j As) ++ [K].
Proof.
  intros Hj Hl. unfold ksq. rewrite map_app, map_map, rows_firstn by auto. f_equal.
  apply map_ext_in. intros m Hm. apply in_seq in Hm. apply dK_chr. lia.
Qed.
Lemma dK_ksf j : (j <= 9)%nat -> (j < length As)%nat -> map (dK j) (ksf j) = map nrow (firstn (S j) As) ++ [K].
Proof.
  intros Hj Hl. unfold ksf. rewrite map_app, map_map, rows_firstn by lia. rewrite seq_S, map_app, <- app_assoc. f_equal.
  apply map_ext_in. intros m Hm. apply in_seq in Hm. apply dK_chr. lia.
Qed.
Lemma kr_rep j : (j <= 9)%nat -> (j <= length As)%nat ->
  rep (dK j) (khatri_rao (firstn j As) K) (ksq j) (fun e => bigprod (seq 0 j) (fun m => el (fac As m) (e (chr m)) (e ch_k))).
Proof.
  intros Hj Hl. split; [apply tabulate_wf|]. split; [rewrite dK_ksq by auto; reflexivity|].
  intros e He. unfold khatri_rao. rewrite at_tabulate.
  2:{ rewrite <- dK_ksq by auto. apply inb_map. auto. }
  rewrite firstn_length_le by auto. apply bigprod_ext. intros m Hm. apply in_seq in Hm. rewrite fac_firstn by lia. unfold ksq. rewrite map_app, map_map.
  f_equal.
  - rewrite app_nth1 by (rewrite map_length, seq_length; lia). rewrite (nth_map_lt _ _ _ 0%nat) by (rewrite seq_length; lia). rewrite nth_seq by lia. reflexivity.
  - rewrite app_nth2; rewrite map_length, seq_length; auto. rewrite Nat.sub_diag. reflexivity.
Qed.
Lemma kr_step j : (1 <= j <= 9)%nat -> (j < length As)%nat ->
  assign false (zeros (map nrow (firstn (S j) As) ++ [K])) (ksf j) [prodt [(khatri_rao (firstn j As) K, ksq j); (fac As j, sjk)]]
  = Ok (khatri_rao (firstn (S j) As) K).
Proof.
  intros Hj Hl.
  set (fg := [((khatri_rao (firstn j As) K, ksq j), fun e : env => bigprod (seq 0 j) (fun m => el (fac As m) (e (chr m)) (e ch_k)));
              ((fac As j, sjk), fun e : env => el (fac As j) (e ch_j) (e ch_k))]).
  destruct (contract_rep RL (dK j) (zeros (map nrow (firstn (S j) As) ++ [K])) (ksf j) fg []) as (B & E & R1 & R2 & R3).
  - apply ksf_nodup. lia.
  - rewrite dK_ksf by lia. reflexivity.
  - constructor; [apply kr_rep; lia|]. constructor; [|constructor]. cbn [fst snd]. destruct (HA j Hl) as [r Hr].
    eapply el_rep; [discriminate|exact Hr| |]; cbn; auto. unfold rows. apply (is_mat_nrow _ _ _ Hr).
  - constructor.
  - intros c. split; [intros []|]. intros [H1 H2]. apply H2. cbn [fg map fst snd flat_map] in H1. unfold ksq, ksf, sjk in *.
    rewrite !in_app_iff in *. cbn [In] in *. intuition.
  - intros q [<-|[<-|[]]]; cbn [snd]; [|apply el_env]. intros e1 e2 H12. apply bigprod_ext. intros m _. rewrite !H12. auto.
  - change [prodt [(khatri_rao (firstn j As) K, ksq j); (fac As j, sjk)]] with [prodt (map fst fg)]. rewrite E. f_equal.
    apply tensor_ext; [exact R1|apply tabulate_wf|rewrite R2, dK_ksf by lia; reflexivity|].
    intros idx Hi. rewrite R2 in Hi. destruct (inb_env (dK j) (ksf j) idx) as (e & <- & He); auto; [apply ksf_nodup; lia|].
    rewrite R3 by auto. unfold khatri_rao. rewrite at_tabulate.
    2:{ rewrite <- dK_ksf by lia. apply inb_map. auto. }
    rewrite firstn_length_le by lia. rewrite seq_S. rewrite (bigprod_app RL). cbn [sumc fg map snd bigprod fold_right Nat.add].
    assert (En : forall m, (m < j)%nat -> nth m (map e (ksf j)) 0%nat = e (chr m)).
    { intros m Hm. unfold ksf. rewrite map_app, map_map. rewrite app_nth1 by (rewrite map_length, seq_length; lia).
      rewrite (nth_map_lt _ _ _ 0%nat) by (rewrite seq_length; lia). rewrite nth_seq by lia. reflexivity. }
    assert (Ej : nth j (map e (ksf j)) 0%nat = e ch_j /\ nth (S j) (map e (ksf j)) 0%nat = e ch_k).
    { unfold ksf. rewrite map_app, map_map. split; rewrite app_nth2; rewrite map_length, seq_length; try lia; [rewrite Nat.sub_diag|replace (S j - j)%nat with 1%nat by lia]; reflexivity. }
    destruct Ej as [Ej Ek]. rewrite Ej, Ek, fac_firstn by lia.
    rewrite (bigprod_ext (seq 0 j) (fun m => el (fac (firstn (S j) As) m) (nth m (map e (ksf j)) 0%nat) (e ch_k)) (fun m => el (fac As m) (e (chr m)) (e ch_k))).
    + cbn [fst snd]. ring.
    + intros m Hm. apply in_seq in Hm. rewrite En, fac_firstn by lia. auto.
Qed.

(** the two index buffers of step j *)
Lemma krp_bufs j (b1 b2 : buf Z) : length b1 = (j + 2)%nat -> length b2 = (j + 3)%nat ->
  exists c1 c2, for_ 0 j (fun jj st => let '(sq, seq_f) := st in
          sq <- bset sq jj (chr jj) ;; seq_f <- bset seq_f jj (chr jj) ;; Ok (sq, seq_f)) (b1, b2) = Ok (c1, c2) /\
    length c1 = (j + 2)%nat /\ length c2 = (j + 3)%nat /\
    (forall i, (i < j)%nat -> nth_error c1 i = Some (Some (chr i))) /\ (forall i, (i < j)%nat -> nth_error c2 i = Some (Some (chr i))).
Proof.
  intros H1 H2. match goal with |- exists c1 c2, for_ 0 j ?body _ = _ /\ _ =>
  destruct (for_inv (fun i (st : buf Z * buf Z) => length (fst st) = (j + 2)%nat /\ length (snd st) = (j + 3)%nat /\
    (forall k, (k < i)%nat -> nth_error (fst st) k = Some (Some (chr k))) /\ (forall k, (k < i)%nat -> nth_error (snd st) k = Some (Some (chr k))))
    body 0%nat j (b1, b2)) as ([c1 c2] & E & H) end.
  - lia.
  - cbn [fst snd]. repeat split; auto; intros; lia.
  - intros i [d1 d2] Hi (L1 & L2 & P1 & P2). cbn [fst snd] in *. rewrite bset_ok by lia. cbn [bind]. rewrite bset_ok by lia. cbn [bind].
    eexists; split; [reflexivity|]. cbn [fst snd]. rewrite !lset_length. repeat split; auto; intros q Hq; rewrite lset_nth_error.
    + rewrite L1. destruct (Nat.eqb_spec q i) as [->|]; cbn [andb]; [destruct (Nat.ltb_spec i (j + 2)); [auto|lia]|apply P1; lia].
    + rewrite L2. destruct (Nat.eqb_spec q i) as [->|]; cbn [andb]; [destruct (Nat.ltb_spec i (j + 3)); [auto|lia]|apply P2; lia].
  - exists c1, c2. split; auto.
Qed.

Definition krp_body (W : list (tensor N)) (index lens_H : buf nat) (j : nat) (H_front : tensor N) : res (tensor N) :=
      let of := order H_front in
      sq <- bset (newbuf (of + 1)) of 0%Z ;;
      seq_f <- bset (newbuf (of + 2)) (of + 1) 0%Z ;;
      '(sq, seq_f) <- for_ 0 (of - 1) (fun jj st =>
          let '(sq, seq_f) := st in
          sq <- bset sq jj (chr jj) ;; seq_f <- bset seq_f jj (chr jj) ;; Ok (sq, seq_f)) (sq, seq_f) ;;
      sq <- bset sq (of - 1) ch_k ;;
      seq_f <- bset seq_f (of - 1) ch_j ;;
      seq_f <- bset seq_f of ch_k ;;
      lens_W <- for_ 0 (j + 1) (fun m b => x <- bget lens_H m ;; bset b m x) (newbuf (j + 2)) ;;
      lens_W <- bset lens_W (j + 1) K ;;
      H_temp <- new_tensor (j + 2) lens_W ;;
      ij <- bget index j ;;
      Wj <- lget W ij ;;
      assign_b H_temp seq_f [(H_front, sq); (Wj, lit sjk)].
Lemma krp_body_ok W (index lens_H : buf nat) (lh : nat -> nat) i j (H : tensor N) :
  (1 <= j)%nat -> order H = (j + 1)%nat -> (forall m, (m <= j)%nat -> bget lens_H m = Ok (lh m)) ->
  bget index j = Ok i -> (i < length W)%nat -> order (fac W i) = 2%nat ->
  krp_body W index lens_H j H = assign false (zeros (map lh (seq 0 (j + 1)) ++ [K])) (ksf j) [prodt [(H, ksq j); (fac W i, sjk)]].
Proof.
  intros Hj Ho Hlh Hi HiW Ho2. unfold krp_body. rewrite Ho. cbv zeta. bsets.
  replace (j + 1 - 1)%nat with j by lia.
  destruct (krp_bufs j (lset (newbuf (j + 1 + 1)) (j + 1) (Some 0%Z)) (lset (newbuf (j + 1 + 2)) (j + 1 + 1) (Some 0%Z))) as (c1 & c2 & E & L1 & L2 & P1 & P2);
    [rewrite lset_length, newbuf_length; lia|rewrite lset_length, newbuf_length; lia|].
  rewrite E. cbn [bind]. bsets.
  fillwith 0%nat lh (j + 2)%nat Ll Pl.
  { intros m b Hm Hb. rewrite Hlh by lia. cbn [bind]. f_equal; lia. }
  bsets.
  rewrite (take_zeros (j + 2) _ (map lh (seq 0 (j + 1)) ++ [K])).
  2:{ apply take_list with (d:=0%nat); [rewrite app_length, map_length, seq_length; cbn; lia|]. intros q Hq.
      rewrite lset_nth_error, Pl, nth_snoc, map_length, seq_length, Ll. natcases; cbn [andb]; auto.
      rewrite (nth_map_lt _ _ _ 0%nat) by (rewrite seq_length; lia). rewrite nth_seq by lia. do 3 f_equal; lia. }
  cbn [bind]. rewrite Hi. cbn [bind]. rewrite (lget_ok W i tnil) by auto. cbn [bind]. fold (fac W i).
  apply assign_b_ok.
  - unfold order at 1. cbn [zeros tabulate lens]. rewrite app_length, map_length, seq_length. cbn [length].
    apply take_list with (d:=0%Z); [unfold ksf; rewrite app_length, map_length, seq_length; cbn [length]; lia|].
    intros q Hq. unfold ksf. rewrite !lset_nth_error, !lset_length, L2. destruct (Nat.lt_ge_cases q j).
    + natcases; cbn [andb]. rewrite P2 by auto. rewrite app_nth1 by (rewrite map_length, seq_length; lia).
      rewrite (nth_map_lt _ _ _ 0%nat) by (rewrite seq_length; lia). rewrite nth_seq by lia. reflexivity.
    + rewrite app_nth2; rewrite map_length, seq_length; [|lia]. assert (Hc : q = j \/ q = (j + 1)%nat) by lia. destruct Hc as [-> | ->].
      * natcases; cbn [andb]. rewrite Nat.sub_diag. reflexivity.
      * natcases; cbn [andb]. replace (j + 1 - j)%nat with 1%nat by lia. reflexivity.
  - apply tixs2.
    + rewrite Ho. apply take_list with (d:=0%Z); [unfold ksq; rewrite app_length, map_length, seq_length; cbn [length]; lia|].
      intros q Hq. unfold ksq. rewrite !lset_nth_error, L1. rewrite nth_snoc, map_length, seq_length. natcases; cbn [andb]; auto.
      rewrite P1 by auto. rewrite (nth_map_lt _ _ _ 0%nat) by (rewrite seq_length; lia). rewrite nth_seq by lia. reflexivity.
    + rewrite Ho2. reflexivity.
Qed.
End P.

Section K.
Context {N : num} (RL : ring_laws N).
Local Open Scope num_scope.
Context (W : list (tensor N)) (ix lh : list nat) (K : nat) (H_T : tensor N).
Hypothesis Hn : (1 <= length ix)%nat.
Hypothesis Hlh : (length ix <= length lh)%nat.
Hypothesis HW : forall m, (m < length ix)%nat -> (nth m ix 0 < length W)%nat /\ is_mat (fac W (nth m ix 0%nat)) (nth m lh 0%nat) K.
Hypothesis HT : order H_T = S (length ix).
Hypothesis HK : nth (length ix) (lens H_T) 0%nat = K.
Let As := map (fac W) ix.
Lemma fac_As m : (m < length ix)%nat -> fac As m = fac W (nth m ix 0%nat).
Proof. intros Hm. unfold As, fac at 1. rewrite (nth_map_lt _ _ _ 0%nat) by auto. reflexivity. Qed.
Lemma As_len : length As = length ix. Proof. apply map_length. Qed.
Lemma krp_unfold : KhatriRaoProduct H_T W (map Some ix) (map Some lh)
  = for_ 1 (length ix) (krp_body K W (map Some ix) (map Some lh)) (fac As 0).
Proof.
  unfold KhatriRaoProduct. rewrite HT. cbn [Nat.sub]. rewrite Nat.sub_0_r.
  rewrite (lget_ok (lens H_T) (length ix) 0%nat) by (unfold order in HT; lia). rewrite HK. cbn [bind].
  rewrite (bget_map ix 0 0%nat) by lia. cbn [bind]. rewrite (lget_ok W _ tnil) by (apply HW; lia). cbn [bind].
  rewrite fac_As by lia. reflexivity.
Qed.
Lemma rows_As j : (j <= length ix)%nat -> map nrow (firstn j As) = map (fun m => nth m lh 0%nat) (seq 0 j).
Proof.
  intros Hj. rewrite rows_firstn by (rewrite As_len; auto). apply map_ext_in. intros m Hm. apply in_seq in Hm.
  rewrite fac_As by lia. destruct (HW m) as [_ H]; [lia|]. apply (is_mat_nrow _ _ _ H).
Qed.
Lemma As_mat m : (m < length As)%nat -> exists r, is_mat (fac As m) r K.
Proof. rewrite As_len. intros Hm. rewrite fac_As by auto. eexists. apply HW; auto. Qed.
Lemma krp_step_body j H : (1 <= j < length ix)%nat -> order H = (j + 1)%nat ->
  krp_body K W (map Some ix) (map Some lh) j H
  = assign false (zeros (map nrow (firstn (S j) As) ++ [K])) (ksf j) [prodt [(H, ksq j); (fac As j, sjk)]].
Proof.
  intros Hj Ho. rewrite (krp_body_ok K W _ _ (fun m => nth m lh 0%nat) (nth j ix 0%nat)).
  - rewrite rows_As by lia. rewrite Nat.add_1_r. rewrite fac_As by lia. reflexivity.
  - lia.
  - auto.
  - intros m Hm. apply bget_map. lia.
  - apply bget_map. lia.
  - apply HW. lia.
  - destruct (HW j) as [_ [E _]]; [lia|]. unfold order. rewrite E. reflexivity.
Qed.
Lemma kr_order j : (j <= length ix)%nat -> order (khatri_rao (firstn j As) K) = (j + 1)%nat.
Proof. intros Hj. unfold order, khatri_rao. cbn [tabulate lens]. rewrite app_length, map_length, firstn_length_le by (rewrite As_len; auto). reflexivity. Qed.
Lemma kr_first : khatri_rao (firstn 1 As) K = fac As 0.
Proof.
  destruct (As_mat 0) as [r [E1 E2]]; [rewrite As_len; lia|].
  assert (Er : map nrow (firstn 1 As) = [r]).
  { rewrite rows_firstn by (rewrite As_len; lia). cbn. unfold nrow. rewrite E1. reflexivity. }
  apply tensor_ext; [apply tabulate_wf|auto|unfold khatri_rao; cbn [tabulate lens]; rewrite Er; auto|].
  intros idx Hi. unfold khatri_rao in Hi |- *. cbn [tabulate lens] in Hi. rewrite at_tabulate by auto. rewrite Er in Hi. cbn [app] in Hi.
  apply inb2_inv in Hi as (i & j & -> & Hi & Hj). rewrite firstn_length_le by (rewrite As_len; lia). cbn [seq bigprod fold_right nth].
  rewrite fac_firstn by lia. rewrite (Rmul_comm RL), (Rmul_1_l RL). reflexivity.
Qed.
Theorem krp_upto n : (1 <= n <= 10)%nat -> (n <= length ix)%nat ->
  for_ 1 n (krp_body K W (map Some ix) (map Some lh)) (fac As 0) = Ok (khatri_rao (firstn n As) K).
Proof.
  intros Hn1 Hn2. destruct (for_inv (fun j H => H = khatri_rao (firstn j As) K) (krp_body K W (map Some ix) (map Some lh)) 1 n (fac As 0)) as (H & E & ->); auto.
  - lia.
  - symmetry. apply kr_first.
  - intros j H Hj ->. rewrite krp_step_body by (rewrite ?kr_order; lia). eexists; split; [|reflexivity].
    apply (kr_step RL As K As_mat j); rewrite ?As_len; lia.
Qed.
Theorem krp_ok : (length ix <= 10)%nat -> KhatriRaoProduct H_T W (map Some ix) (map Some lh) = Ok (khatri_rao As K).
Proof. intros H. rewrite krp_unfold, krp_upto by lia. rewrite firstn_all2 by (rewrite As_len; lia). auto. Qed.

(** eleven factors or more: the letter of mode 9 is the one of the incoming matrix *)
Lemma for_lo_ok hi e : (10 < hi)%nat -> (hi <= length ix)%nat ->
  krp_body K W (map Some ix) (map Some lh) 10 (khatri_rao (firstn 10 As) K) = Err e ->
  for_ 1 hi (krp_body K W (map Some ix) (map Some lh)) (fac As 0) = Err e.
Proof.
  intros H1 H2 E. rewrite (for_split 1 10 hi) by lia. rewrite krp_upto by lia. cbn [bind]. apply for_first_err; auto.
Qed.
Theorem krp_unequal : (11 <= length ix)%nat -> nth 9 lh 0%nat <> nth 10 lh 0%nat ->
  KhatriRaoProduct H_T W (map Some ix) (map Some lh) = Err CtfError.
Proof.
  intros H11 Hne. rewrite krp_unfold. apply for_lo_ok; [lia|lia|]. rewrite krp_step_body by (rewrite ?kr_order; lia).
  apply assign_bad with (t := prodt [(khatri_rao (firstn 10 As) K, ksq 10); (fac As 10, sjk)]) (c := ch_j) (a := nth 9 lh 0%nat) (b := nth 10 lh 0%nat); [| |auto|left; auto].
  - unfold dims. cbn [flat_map fst snd]. apply in_or_app. left. rewrite rows_As by lia. cbn. tauto.
  - unfold dims. cbn [flat_map fst snd facs prodt]. apply in_or_app. left. rewrite rows_As by lia. cbn. tauto.
Qed.
Theorem krp_eleven : length ix = 11%nat -> nth 9 lh 0%nat = nth 10 lh 0%nat ->
  exists T, KhatriRaoProduct H_T W (map Some ix) (map Some lh) = Ok T /\ lens T = map (fun m => nth m lh 0%nat) (seq 0 11) ++ [K] /\
    forall x, inb (lens T) x -> nth 9 x 0%nat <> nth 10 x 0%nat -> at_ T x = n0.
Proof.
  intros H11 Heq. rewrite krp_unfold. rewrite H11. rewrite (for_split 1 10 11) by lia. rewrite krp_upto by lia. cbn [bind].
  unfold for_. cbn [Nat.sub loop]. rewrite krp_step_body by (rewrite ?kr_order; lia).
  rewrite rows_As by lia. unfold assign at 1.
  assert (Ok1 : (length (ksf 10) =? order (zeros (N:=N) (map (fun m => nth m lh 0%nat) (seq 0 11) ++ [K])))%nat &&
    forallb (term_ok (zeros (map (fun m => nth m lh 0%nat) (seq 0 11) ++ [K])) (ksf 10)) [prodt [(khatri_rao (firstn 10 As) K, ksq 10); (fac As 10, sjk)]] = true).
  { apply andb_true_intro. split; [reflexivity|]. cbn [forallb]. rewrite andb_true_r. unfold term_ok.
    assert (El : lens (khatri_rao (firstn 10 As) K) = map (fun m => nth m lh 0%nat) (seq 0 10) ++ [K]) by (unfold khatri_rao; cbn [tabulate lens]; rewrite rows_As by lia; auto).
    assert (Ew : lens (fac As 10) = [nth 10 lh 0%nat; K]) by (rewrite fac_As by lia; apply HW; lia).
    apply andb_true_intro. split.
    - unfold lengths_ok. cbn [forallb facs prodt fst snd]. unfold order. rewrite El, Ew. reflexivity.
    - unfold consistent. unfold dims. cbn [flat_map facs prodt fst snd]. rewrite El, Ew. cbn. rewrite Heq. rewrite !Nat.eqb_refl. reflexivity. }
  rewrite Ok1. cbn [bind]. eexists. split; [reflexivity|]. split; [reflexivity|].
  intros x Hx Hne. cbn [tabulate lens] in Hx. change (lens (zeros ?l)) with l in Hx. rewrite at_tabulate by exact Hx.
  assert (addressed (ksf 10) x = false) as ->.
  { unfold addressed. apply inconsistent with (c := ch_j) (a := nth 9 x 0%nat) (b := nth 10 x 0%nat); auto.
    - assert (Hl := Forall2_len _ _ _ Hx). cbn in Hl. change ch_j with (nth 9 (ksf 10) 0%Z). apply in_combine_nth; cbn; lia.
    - assert (Hl := Forall2_len _ _ _ Hx). cbn in Hl. change ch_j with (nth 10 (ksf 10) 0%Z). apply in_combine_nth; cbn; lia. }
  unfold zeros. rewrite at_tabulate; auto.
Qed.
End K.
