(** Multilinearity of the MTTKRP: what the pairwise-perturbation expansion drops *)
From Coq Require Import List ZArith Lia Bool Arith Permutation Ring.
From Verif Require Import Base Num Tensor Spec Spec2 MCommon MCP PBase PTensor PSum PMttkrp PPart PMat PKhatri PGrad PMatAlg PResid
  PSolve PTree PDT PDTSweep PALS PDrivers PPP PPPSweep PPPDriver.
Import ListNotations.

Section P.
Context {N : num} (RL : ring_laws N).
Let RT : ring_theory (@n0 N) n1 nadd nmul nsub nopp (@eq N) := RL.
Add Ring NringPM : RT.
Local Open Scope num_scope.

Lemma sub_cancel (a b : N) : a + b = a -> b = n0.
Proof. intros H. transitivity ((a + b) - a); [ring|]. rewrite H. ring. Qed.
(** polynomials in t with coefficients cs *)
Fixpoint peval (cs : list N) (t : N) : N := match cs with [] => n0 | c :: cs' => c + t * peval cs' t end.
Fixpoint padd (p q : list N) : list N :=
  match p, q with [], _ => q | _, [] => p | a :: p', b :: q' => (a + b) :: padd p' q' end.
Definition pscal (a : N) (p : list N) : list N := map (fun c => a * c) p.
Lemma peval_add p q t : peval (padd p q) t = peval p t + peval q t.
Proof. revert q. induction p; intros [|b q]; cbn; try ring. rewrite IHp. ring. Qed.
Lemma peval_scal a p t : peval (pscal a p) t = a * peval p t.
Proof. induction p as [|c p IH]; [cbn; ring|]. change (pscal a (c :: p)) with (a * c :: pscal a p). cbn [peval]. rewrite IH. ring. Qed.
Lemma prod_expand (a b : nat -> N) (ms : list nat) : NoDup ms ->
  exists cs, forall t, bigprod ms (fun m => a m + t * b m)
    = bigprod ms a + t * bigsum ms (fun m => bigprod ms (fun q => if Nat.eqb q m then b q else a q)) + t * t * peval cs t.
Proof.
  induction ms as [|m ms IH]; intros Hn.
  - exists []. intros t. cbn. ring.
  - inversion Hn as [|x l Hnot Hnd]; subst. destruct (IH Hnd) as (cs & Hcs).
    set (D := bigsum ms (fun m => bigprod ms (fun q => if Nat.eqb q m then b q else a q))) in *.
    exists (padd (pscal (a m) cs) (padd [b m * D] (n0 :: pscal (b m) cs))). intros t.
    change (bigprod (m :: ms) (fun m => a m + t * b m)) with ((a m + t * b m) * bigprod ms (fun m => a m + t * b m)).
    rewrite Hcs. rewrite !peval_add. cbn [peval]. rewrite !peval_scal.
    change (bigprod (m :: ms) a) with (a m * bigprod ms a).
    assert (Es : bigsum (m :: ms) (fun m0 => bigprod (m :: ms) (fun q => if Nat.eqb q m0 then b q else a q)) = b m * bigprod ms a + a m * D).
    { transitivity (bigprod (m :: ms) (fun q => if Nat.eqb q m then b q else a q) + bigsum ms (fun m0 => bigprod (m :: ms) (fun q => if Nat.eqb q m0 then b q else a q))).
      { reflexivity. }
      f_equal.
      - transitivity ((if Nat.eqb m m then b m else a m) * bigprod ms (fun q => if Nat.eqb q m then b q else a q)); [reflexivity|].
        rewrite Nat.eqb_refl. f_equal. apply bigprod_ext. intros q Hq. destruct (Nat.eqb_spec q m); auto. subst. contradiction.
      - unfold D. rewrite <- (bigsum_mul_l RL). apply bigsum_ext. intros m0 Hm0.
        transitivity ((if Nat.eqb m m0 then b m else a m) * bigprod ms (fun q => if Nat.eqb q m0 then b q else a q)); [reflexivity|].
        destruct (Nat.eqb_spec m m0); [subst; contradiction|]. reflexivity. }
    rewrite Es. ring.
Qed.
Lemma sum_expand {A} (l : list A) (f : A -> N -> N) (c0 c1 : A -> N) :
  (forall x, In x l -> exists cs, forall t, f x t = c0 x + t * c1 x + t * t * peval cs t) ->
  exists cs, forall t, bigsum l (fun x => f x t) = bigsum l c0 + t * bigsum l c1 + t * t * peval cs t.
Proof.
  induction l as [|x l IH]; intros H.
  - exists []. intros. cbn. ring.
  - destruct IH as (cs & Hcs). { intros. apply H. right; auto. }
    destruct (H x) as (cx & Hcx); [left; auto|]. exists (padd cx cs). intros t. rewrite peval_add.
    transitivity (f x t + bigsum l (fun x => f x t)); [reflexivity|].
    change (bigsum (x :: l) c0) with (c0 x + bigsum l c0). change (bigsum (x :: l) c1) with (c1 x + bigsum l c1). rewrite Hcs, Hcx. ring.
Qed.

Context (V : tensor N) (R : nat).
Let o := order V.
Lemma el_pp (W0 dW : list (tensor N)) n i k : (i < nth n (lens V) 0)%nat -> (k < R)%nat ->
  el (pp_mttkrp V W0 dW n R) i k = mttkrp_at V W0 n i k + bigsum (others n o) (fun m => mttkrp_at V (setf W0 m (fac dW m)) n i k).
Proof.
  intros Hi Hk. unfold el, pp_mttkrp. rewrite at_tabulate by (apply inb2; auto).
  change (at_ (mttkrp V W0 n R) [i; k]) with (el (mttkrp V W0 n R) i k). rewrite el_mttkrp by auto. f_equal.
  apply bigsum_ext. intros q _. change (at_ ?A [i; k]) with (el A i k). rewrite el_mttkrp by auto. auto.
Qed.
(** the factors W0 + t dW *)
Definition moved_by (W0 dW : list (tensor N)) (t : N) : list (tensor N) :=
  map (fun m => madd (fac W0 m) (mscal t (fac dW m))) (seq 0 o).

Theorem mttkrp_expansion (W0 dW : list (tensor N)) n i k : mats_ok V W0 R -> mats_ok V dW R -> (n < o)%nat -> (i < nth n (lens V) 0)%nat -> (k < R)%nat ->
  exists cs, forall t, el (mttkrp V (moved_by W0 dW t) n R) i k
     = el (pp_mttkrp V W0 (map (mscal t) dW) n R) i k + t * t * peval cs t.
Proof.
  intros HW HD Hn Hi Hk.
  destruct (sum_expand (filter (fun x => Nat.eqb (nth n x 0%nat) i) (all_idx (lens V)))
    (fun x t => at_ V x * bigprod (others n o) (fun m => el (fac (moved_by W0 dW t) m) (nth m x 0%nat) k))
    (fun x => at_ V x * bigprod (others n o) (fun m => el (fac W0 m) (nth m x 0%nat) k))
    (fun x => at_ V x * bigsum (others n o) (fun q => bigprod (others n o) (fun m => if Nat.eqb m q then el (fac dW m) (nth m x 0%nat) k else el (fac W0 m) (nth m x 0%nat) k))))
    as (cs & Hcs).
  - intros x Hx. apply filter_In in Hx as [Hx _].
    destruct (prod_expand (fun m => el (fac W0 m) (nth m x 0%nat) k) (fun m => el (fac dW m) (nth m x 0%nat) k) (others n o)) as (cs & Hcs); [apply others_nodup|].
    exists (pscal (at_ V x) cs). intros t. rewrite peval_scal.
    rewrite (bigprod_ext (others n o) _ (fun m => el (fac W0 m) (nth m x 0%nat) k + t * el (fac dW m) (nth m x 0%nat) k)).
    + rewrite Hcs. ring.
    + intros m Hm. apply others_in in Hm as [Hm _]. unfold moved_by. rewrite fac_map_seq by auto.
      apply all_idx_in in Hx. assert (Hmx : (nth m x 0 < nth m (lens V) 0)%nat) by (apply inb_nth; auto).
      rewrite (el_madd _ _ (nth m (lens V) 0%nat) R) by (auto; apply HW; auto).
      rewrite (el_mscal _ _ (nth m (lens V) 0%nat) R) by (auto; apply HD; auto). auto.
  - exists cs. intros t. rewrite el_mttkrp by auto. unfold mttkrp_at at 1. rewrite Hcs. f_equal.
    rewrite el_pp by auto. unfold mttkrp_at at 1. f_equal.
    rewrite (bigsum_ext (others n o) _ (fun q => t * mttkrp_at V (setf W0 q (fac dW q)) n i k)).
    + rewrite (bigsum_mul_l RL). f_equal. unfold mttkrp_at. fold o. rewrite (bigsum_swap RL). apply bigsum_ext. intros x _.
      rewrite (bigsum_mul_l RL). f_equal. apply bigsum_ext. intros q Hq. apply others_in in Hq as [Hq _]. apply bigprod_ext. intros m Hm.
      rewrite fac_setf by (destruct HW as [-> _]; auto). destruct (Nat.eqb_spec m q); subst; auto.
    + intros q Hq. apply others_in in Hq as [Hq1 Hq2].
      assert (HL : length W0 = o) by apply HW. rewrite !mttkrp_split1 by (auto; lia). rewrite <- (bigsum_mul_l RL). apply bigsum_ext. intros a Ha. apply in_seq in Ha.
      unfold fac at 1. rewrite (nth_map_lt _ _ _ tnil) by (destruct HD as [-> _]; auto). fold (fac dW q).
      rewrite (el_mscal _ _ (nth q (lens V) 0%nat) R) by (auto; try lia; apply HD; auto). ring.
Qed.

(** linear in each factor *)
Lemma mttkrp_add W0 m n D i k : length W0 = o -> is_mat (fac W0 m) (nth m (lens V) 0%nat) R -> is_mat D (nth m (lens V) 0%nat) R ->
  (n < o)%nat -> (m < o)%nat -> m <> n -> (k < R)%nat ->
  mttkrp_at V (setf W0 m (madd (fac W0 m) D)) n i k = mttkrp_at V W0 n i k + mttkrp_at V (setf W0 m D) n i k.
Proof.
  intros HL HW HD Hn Hm Hne Hk. assert (E0 : W0 = setf W0 m (fac W0 m)).
  { apply (list_fac_ext _ _ o); auto. { rewrite setf_length; auto. } intros q Hq. rewrite fac_setf by lia. destruct (Nat.eqb_spec q m); subst; auto. }
  rewrite E0 at 3. rewrite !mttkrp_split1 by auto. rewrite <- (bigsum_add RL). apply bigsum_ext. intros a Ha. apply in_seq in Ha.
  rewrite (el_madd _ _ (nth m (lens V) 0%nat) R) by (auto; lia). ring.
Qed.
Lemma mttkrp_zero W0 m n D i k : length W0 = o -> (forall a, (a < nth m (lens V) 0)%nat -> el D a k = n0) ->
  (n < o)%nat -> (m < o)%nat -> m <> n -> mttkrp_at V (setf W0 m D) n i k = n0.
Proof.
  intros HL HD Hn Hm Hne. rewrite mttkrp_split1 by auto. apply (bigsum_zero RL). intros a Ha. apply in_seq in Ha. rewrite HD by lia. ring.
Qed.
Lemma mttkrp_other_only W W' n i k : (n < o)%nat -> (forall m, (m < o)%nat -> m <> n -> fac W m = fac W' m) -> mttkrp_at V W n i k = mttkrp_at V W' n i k.
Proof.
  intros Hn H. unfold mttkrp_at. apply bigsum_ext. intros x _. f_equal. apply bigprod_ext. intros m Hm. apply others_in in Hm as [Hm1 Hm2]. rewrite H; auto.
Qed.
Theorem pp_exact_one (W0 dW W : list (tensor N)) n m : mats_ok V W0 R -> mats_ok V dW R -> length W = o -> (n < o)%nat -> (m < o)%nat -> m <> n ->
  (forall q, (q < o)%nat -> q <> n -> fac W q = madd (fac W0 q) (fac dW q)) ->
  (forall q, (q < o)%nat -> q <> n -> q <> m -> fac W q = fac W0 q) ->
  pp_mttkrp V W0 dW n R = mttkrp V W n R.
Proof.
  intros HW HD HL Hn Hm Hne Hall Hone. unfold pp_mttkrp, mttkrp at 3. apply tabulate_ext.
  intros idx Hidx. apply inb2_inv in Hidx as (i & k & -> & Hi & Hk). cbn [nth].
  change (at_ (mttkrp V W0 n R) [i; k]) with (el (mttkrp V W0 n R) i k). rewrite el_mttkrp by auto. fold o.
  assert (HL0 : length W0 = o) by apply HW.
  rewrite (bigsum_ext (others n o) _ (fun q => if Nat.eqb q m then mttkrp_at V (setf W0 m (fac dW m)) n i k else n0)).
  - rewrite (bigsum_single RL) with (a:=m); [|apply others_nodup|apply others_in; auto|intros q _ Hq; natcases; auto]. rewrite Nat.eqb_refl.
    rewrite <- mttkrp_add; auto; [|apply HW; auto|apply HD; auto].
    apply mttkrp_other_only; auto. intros q Hq Hqn. rewrite fac_setf by lia. destruct (Nat.eqb_spec q m); [subst|symmetry; auto].
    symmetry. auto.
  - intros q Hq. apply others_in in Hq as [Hq1 Hq2]. change (at_ ?A [i; k]) with (el A i k). rewrite el_mttkrp by auto.
    destruct (Nat.eqb_spec q m); [subst; auto|]. apply mttkrp_zero; auto. intros a Ha.
    apply (sub_cancel (el (fac W0 q) a k)). rewrite <- (el_madd _ _ (nth q (lens V) 0%nat) R); auto; [|apply HW; auto].
    rewrite <- Hall by auto. rewrite Hone; auto.
Qed.
End P.
