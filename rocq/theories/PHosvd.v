(** HOSVD: factors and core *)
From Coq Require Import List ZArith Lia Bool Arith Permutation Ring.
From Verif Require Import Base Num Tensor Spec Spec7 MCommon MCP MTucker PBase PTensor PSum PMttkrp PPart PMat PKhatri PGrad PDrivers PBuildV PTtm PTucker.
Import ListNotations.

Section P.
Context {N : num} (RL : ring_laws N) (LA : lapack N).
Let RT : ring_theory (@n0 N) n1 nadd nmul nsub nopp (@eq N) := RL.
Add Ring NringH : RT.
Local Open Scope num_scope.

Definition hosvd_factors (T : tensor N) (ranks : list nat) : list (tensor N) :=
  map (fun i => lsv (svd LA) (unfold_gram T i) (nth i ranks 0%nat)) (seq 0 (order T)).

Lemma hosvd_factors_nth T ranks i : i < order T ->
  fac (hosvd_factors T ranks) i = lsv (svd LA) (unfold_gram T i) (nth i ranks 0%nat).
Proof. intros H. unfold fac, hosvd_factors. rewrite (nth_map_lt _ _ _ 0%nat) by (rewrite seq_length; auto). rewrite nth_seq by auto. auto. Qed.
Lemma hosvd_factors_len T ranks : length (hosvd_factors T ranks) = order T.
Proof. unfold hosvd_factors. rewrite map_length, seq_length. auto. Qed.

Theorem get_factors_ok (T : tensor N) F ranks : wf T -> order T <= 18 -> length F = order T -> length ranks = order T ->
  get_factor_matrices LA T F ranks = Ok (hosvd_factors T ranks).
Proof.
  intros HT Ho LF LR. unfold get_factor_matrices.
  destruct (for_inv (fun j G => length G = order T /\ forall i, i < j -> nth i G tnil = fac (hosvd_factors T ranks) i)
     (fun i F => MTM <- unroll_tensor_contraction T i ;; k <- lget ranks i ;;
      let '(U, _, _) := svd LA MTM k in lput F i U) 0 (order T) F) as (G & E & LG & PG).
  - lia.
  - split; auto. lia.
  - intros j G Hj (LG & PG). rewrite (unroll_ok RL) by (auto; lia). cbn [bind].
    rewrite (lget_ok ranks j 0%nat) by lia. cbn [bind].
    pose proof (hosvd_factors_nth T ranks j ltac:(lia)) as HU. unfold lsv in HU.
    destruct (svd LA (unfold_gram T j) (nth j ranks 0%nat)) as [[U s] VT]. rewrite lput_ok by lia.
    eexists; split; [reflexivity|]. split; [rewrite lset_length; auto|]. intros i Hi.
    destruct (Nat.eq_dec i j) as [->|Hn]; [rewrite lset_same by lia; auto|]. rewrite lset_other by auto. apply PG. lia.
  - rewrite E. f_equal. apply nth_eq_ext with (d:=tnil); [rewrite hosvd_factors_len; auto|]. intros i Hi. apply PG. lia.
Qed.

Lemma seq0_S j : seq 0 (S j) = seq 0 j ++ [j].
Proof. rewrite seq_S. auto. Qed.
Lemma ttmc_seq_S (V : tensor N) W j : ttmc V W (seq 0 (S j)) = ttmc V W (j :: seq 0 j).
Proof. apply (ttmc_perm RL). rewrite seq0_S. apply Permutation_sym, Permutation_cons_append. Qed.
Lemma ttmc_lens_seq_S (V : tensor N) W j : j < order V -> ttmc_lens V W (seq 0 (S j)) = lset (ttmc_lens V W (seq 0 j)) j (ncol (fac W j)).
Proof.
  intros H. rewrite <- (ttmc_cons_lens V W) by auto. pose proof (ttmc_seq_S V W j) as E. apply (f_equal lens) in E. exact E.
Qed.
Lemma a_fresh_cls o : o <= 18 -> ~ In 97%Z (cls o).
Proof. intros Ho H. apply cls_in in H; auto. lia. Qed.

Theorem get_core_ok (T : tensor N) F ranks : tucker_ok T F ranks -> order T <= 18 ->
  get_core_tensor T F ranks = Ok (tucker_core T F).
Proof.
  intros HT Ho. pose proof (tucker_shapes _ _ _ HT) as (WT & LF & HF). destruct HT as (_ & _ & LR & HM).
  unfold get_core_tensor. set (o := order T) in *.
  assert (Hnc : forall m, m < o -> ncol (fac F m) = nth m ranks 0%nat).
  { intros m Hm. apply (mat_ncol _ _ _ (HM m Hm)). }
  set (body1 := fun (i : nat) (st : list (tensor N) * list nat) => _).
  destruct (for_inv (fun j st => let '(cores, ls) := st in length cores = j /\ ls = ttmc_lens T F (seq 0 (j - 1)) /\
      nth 0 cores tnil = T /\ forall k, 1 <= k < j -> nth k cores tnil = zeros (ttmc_lens T F (seq 0 k)))
    body1 1%nat (o + 1)%nat ([T], lens T)) as ([cores ls] & E & Lc & _ & C0 & Ck).
  - lia.
  - split; auto. split; [|split; [auto|lia]]. cbn [Nat.sub seq].
    pose proof (ttmc_nil RL T F WT) as En. apply (f_equal lens) in En. exact (eq_sym En).
  - intros j [cores ls] Hj (Lc & -> & C0 & Ck). unfold body1.
    rewrite (lget_ok ranks (j - 1) 0%nat) by lia. cbn [bind].
    assert (Ll : length (ttmc_lens T F (seq 0 (j - 1))) = o) by apply ttmc_lens_length.
    rewrite lput_ok by lia. cbn [bind]. rewrite <- Hnc by lia. rewrite <- ttmc_lens_seq_S by lia.
    replace (S (j - 1)%nat) with j by lia.
    eexists; split; [reflexivity|]. split; [rewrite app_length; simpl; lia|]. split; [replace (S j - 1)%nat with j by lia; auto|].
    split; [rewrite app_nth1 by lia; auto|]. intros k Hk. destruct (Nat.eq_dec k j) as [->|Hn].
    + rewrite app_nth2 by lia. rewrite Lc, Nat.sub_diag. auto.
    + rewrite app_nth1 by lia. apply Ck. lia.
  - rewrite E. cbn [bind]. clear E body1.
    destruct (fill18_ok o Ho) as (a1 & a2 & E & E1 & E2). rewrite E. cbn [bind]. rewrite E1. cbn [bind]. rewrite E2. cbn [bind].
    clear E E1 E2 a1 a2. set (s := cls o) in *.
    assert (Ls : length s = o) by apply cls_len.
    assert (Hs : NoDup s) by (apply cls_nodup; auto).
    set (body2 := fun (i : nat) (st : list (tensor N) * buf Z) => _).
    destruct (for_inv (fun j st => let '(cores, ca) := st in length cores = (o + 1)%nat /\ ca = sb s /\
        nth j cores tnil = ttmc T F (seq 0 j) /\ forall k, j < k < o + 1 -> nth k cores tnil = zeros (ttmc_lens T F (seq 0 k)))
      body2 0%nat o (cores, sb s)) as ([cores' ca] & E & Lc' & _ & C0' & _).
    + lia.
    + split; auto. split; auto. split; [cbn [seq]; rewrite (ttmc_nil RL) by auto; auto|]. intros k Hk. apply Ck. lia.
    + intros j [cs ca] Hj (Lcs & -> & Cj & Cr). unfold body2.
      rewrite sb_bset by (rewrite Ls; lia). cbn [bind].
      assert (bget (sb s) j = Ok (nth j s 0%Z)) as ->.
      { unfold sb. rewrite (bget_map _ _ 0%Z) by (rewrite app_length; lia). rewrite app_nth1 by lia. auto. }
      cbn [bind]. rewrite (lget_ok F j tnil) by lia. cbn [bind]. fold (fac F j).
      assert (Hm := HF j ltac:(lia)). pose proof Hm as (Lm & _).
      rewrite (assign_trans RL _ _ (ncol (fac F j)) (nrow (fac F j))); [|reflexivity|].
      2:{ unfold nrow. rewrite Lm at 1. rewrite Lm. auto. }
      cbn [bind]. rewrite (lget_ok cs j tnil) by lia. cbn [bind]. rewrite (lget_ok cs (j + 1) tnil) by lia. cbn [bind].
      rewrite Cj, (Cr (j + 1)%nat) by lia.
      rewrite (assign_b_ok _ _ _ (lset s j 97%Z) [(mtrans (fac F j), [97%Z; nth j s 0%Z]); (ttmc T F (seq 0 j), s)]).
      2:{ apply sb_take. rewrite lset_length, Ls. unfold order. cbn [zeros tabulate lens]. apply ttmc_lens_length. }
      2:{ apply tixs2; [reflexivity|]. apply sb_take. rewrite Ls. apply ttmc_order. }
      rewrite (assign_ttm_t RL).
      * cbn [bind]. rewrite (ttm_ttmc RL) by (try lia; rewrite in_seq; lia).
        rewrite lput_ok by lia. cbn [bind]. rewrite sb_bset by (rewrite lset_length; lia). cbn [bind].
        eexists; split; [reflexivity|]. split; [rewrite lset_length; auto|]. split; [rewrite lset_restore; auto|].
        replace (j + 1)%nat with (S j) by lia. split; [rewrite lset_same by lia; symmetry; apply ttmc_seq_S|].
        intros k Hk. rewrite lset_other by lia. apply Cr. lia.
      * auto.
      * rewrite Ls, ttmc_order. auto.
      * rewrite ttmc_order. fold o. lia.
      * apply a_fresh_cls; auto.
      * apply ttmc_wf.
      * cbn [ttmc tabulate lens]. rewrite ttmc_lens_nth by (fold o; lia). rewrite existsb_not by (rewrite in_seq; lia). auto.
      * cbn [zeros ttmc tabulate lens]. replace (j + 1)%nat with (S j) by lia. apply ttmc_lens_seq_S. fold o; lia.
    + rewrite E. cbn [bind]. rewrite (lget_ok cores' o tnil) by lia. rewrite C0'. auto.
Qed.

Lemma unfold_gram_mat (T : tensor N) n : is_mat (unfold_gram T n) (nth n (lens T) 0%nat) (nth n (lens T) 0%nat).
Proof. split; [reflexivity|apply tabulate_wf]. Qed.
Lemma lsv_mat (T : tensor N) n k : svd_trunc_shaped (svd LA) -> 1 <= k <= nth n (lens T) 0%nat ->
  is_mat (lsv (svd LA) (unfold_gram T n) k) (nth n (lens T) 0%nat) k.
Proof.
  intros HS Hk. pose proof (HS _ _ k (unfold_gram_mat T n) Hk) as H. unfold lsv.
  destruct (svd LA (unfold_gram T n) k) as [[U s] VT]. apply H.
Qed.
Lemma hosvd_tucker_ok T ranks : wf T -> svd_trunc_shaped (svd LA) -> ranks_ok (lens T) ranks ->
  tucker_ok T (hosvd_factors T ranks) ranks.
Proof.
  intros HT HS (LR & HR). split; auto. split; [apply hosvd_factors_len|]. split; auto. intros m Hm.
  rewrite hosvd_factors_nth by auto. apply lsv_mat; auto.
Qed.
Theorem hosvd_ok (T : tensor N) F ranks : wf T -> order T <= 18 -> length F = order T ->
  svd_trunc_shaped (svd LA) -> ranks_ok (lens T) ranks ->
  hosvd LA T F ranks = Ok (tucker_core T (hosvd_factors T ranks), hosvd_factors T ranks).
Proof.
  intros HT Ho LF HS HR. unfold hosvd. rewrite get_factors_ok by (auto; apply HR). cbn [bind].
  rewrite (get_core_ok _ _ ranks) by (auto; apply hosvd_tucker_ok; auto). auto.
Qed.
End P.
