(** The low-rank optimizers: the loop over the positions of the tree *)
From Coq Require Import List ZArith QArith Lia Bool Arith Permutation Ring.
From Verif Require Import Base Num Tensor Spec Spec3 MCommon MCP MOpt MOptLR PBase PTensor PSum PMttkrp PPart PMat PKhatri PGrad PMatAlg PResid
  PSolve PTree PDT PDTSweep PALS PropPP PPPSweep POpt POptTree POptEval POptStep POptLR.
Import ListNotations.
Local Close Scope Q_scope.

Section P.
Context {N : num} (RL : ring_laws N) (LA : lapack N) (V : tensor N) (R : nat) (lambda : N).
Let o := order V.
Hypothesis Hsh : tri_shaped (cholesky LA) (solve_tri LA).
Hypothesis Hlow : low_shaped (svd LA) (qr_q LA) (rnd LA).
Hypothesis Ho : 3 <= o <= 31.
Context (rs : bool) (k : nat).
Hypothesis HkR : k <= R.
Hypothesis HkV : forall n, n < o -> k <= nth n (lens V) 0.
Let trunc := trunc_of (svd LA) (qr_q LA) (rnd LA) rs.
Let inc := lr_inc trunc (cholesky LA) (solve_tri LA) k.
Let solve := chol_solve (cholesky LA) (solve_tri LA).
Let acts := lr_acts solve inc lambda V R.
Context (t : tree).
Hypothesis Ht : good_tree (o - 1) t.
Notation gst := (opt_st N * smap (tensor N) * (lowrank N * bool))%type.

Definition gmode (fuel : nat) (ref : option (list (tensor N))) (indexes : list nat) (low : bool) (i : nat) (x : gst) : res gst :=
  let '(st, mp, (lo, flag)) := x in
  '(mp, M) <- leaf_M fuel V (oW st) t indexes mp i ;;
  n <- lget indexes i ;;
  if low then
    '(st, lo) <- lr_update LA k rs (match ref with None => true | Some _ => false end) o (mscal lambda (mid R)) M n
        (match ref with None => oW st | Some r => r end) st lo ;;
    Ok (st, mp, (lo, true))
  else
    st <- opt_update LA o (mscal lambda (mid R)) M n st ;;
    Ok (st, mp, (lo, flag)).
Definition gact (ref : option (list (tensor N))) (low : bool) (n : nat) : list action :=
  if low then match ref with None => [Snap n; LowRank n] | Some _ => [LowRank n] end else [Full n].
Lemma acts_app a b r : acts (a ++ b) r = acts b (acts a r).
Proof. unfold acts, lr_acts. apply fold_left_app. Qed.
Definition absr (st : opt_st N) (rf : list (tensor N)) (c : nat) : lrst N := mkLR (oW st) (oG st) rf c.

Theorem gmode_ok l fuel ref low i st mp lo flag rf : l < o -> ost_ok V R st -> i < o - 1 -> o - 1 <= fuel -> oinv V R l i (oW st) mp ->
  let m := cmode o l i in let A := fac (match ref with None => oW st | Some r => r end) m in
  length rf = o -> match ref with None => True | Some r => r = rf /\ (low = true -> is_mat A (nth m (lens V) 0) R) end ->
  exists st' mp' lo' flag' rf' X, gmode fuel ref (after o l) low i (st, mp, (lo, flag)) = Ok (st', mp', (lo', flag')) /\ ost_ok V R st' /\
    acts (gact ref low m) (absr st rf (lseed lo)) = absr st' rf' (lseed lo') /\ length rf' = o /\ match ref with None => True | Some r => r = rf' end /\
    oW st' = setf (oW st) m X /\ (S i < o - 1 -> oinv V R l (S i) (oW st') mp') /\
    (if low then flag' = true /\ low_fit V R k lo' m /\ X = madd A (low_val k lo') else lo' = lo /\ flag' = flag).
Proof.
  intros Hl Hst Hi Hf Hinv m A Hrf Href. unfold gmode.
  destruct (leaf_ok RL V R Ho t Ht l Hl fuel (oW st) i mp) as (mp' & E & Hinv'); auto; [apply Hst|]. fold o in E. rewrite E. cbn [bind].
  assert (Hm : m < o) by (apply cmode_lt; lia).
  assert (HLW : length (oW st) = o) by (destruct Hst as ((_ & HL & _) & _); auto).
  rewrite (lget_ok _ _ 0) by (rewrite after_length; lia). rewrite after_nth by lia. cbn [bind]. fold m.
  assert (Hnext : forall X, S i < o - 1 -> oinv V R l (S i) (setf (oW st) m X) mp').
  { intros X HSi. apply (oinv_next V R Ho l Hl); auto. }
  destruct low.
  - set (r0 := match ref with None => oW st | Some r => r end) in *.
    assert (Hlr : length r0 = o) by (unfold r0; destruct ref; [destruct Href; congruence|auto]).
    destruct (lr_update_ok RL LA V R lambda Hsh Hlow rs k HkR HkV (match ref with None => true | Some _ => false end) r0 st lo m)
      as (st' & lo' & E2 & Hok & HW' & HG' & Hs & Hfit & Hinc); auto.
    + fold o. lia.
    + fold o. lia.
    + unfold r0. destruct ref; [apply Href; auto|]. apply Hst. auto.
    + unfold r0. destruct ref; [discriminate|auto].
    + fold o in E2. change (@lr_inc N (trunc_of (svd LA) (qr_q LA) (rnd LA) rs) (cholesky LA) (solve_tri LA) k) with inc in HW', Hinc.
      cbv zeta in E2. rewrite E2. cbn [bind]. destruct ref as [r|].
      * destruct Href as [-> HA]. exists st', mp', lo', true, rf. eexists. split; [reflexivity|]. split; [auto|]. split.
        { cbn [gact acts lr_acts fold_left]. unfold acts, lr_acts. cbn [fold_left lr_act absr]. unfold absr. rewrite HW', HG', Hs. reflexivity. }
        split; [auto|]. split; [auto|]. split; [exact HW'|]. split; [rewrite HW'; auto|]. split; [auto|]. split; [auto|]. unfold A. rewrite <- Hinc. reflexivity.
      * exists st', mp', lo', true, (setf rf m (fac (oW st) m)). eexists. split; [reflexivity|]. split; [auto|]. split.
        { unfold acts, lr_acts. cbn [gact fold_left lr_act absr]. unfold absr. rewrite fac_setf by lia. rewrite Nat.eqb_refl. rewrite HW', HG', Hs. reflexivity. }
        split; [rewrite setf_length; auto|]. split; [auto|]. split; [exact HW'|]. split; [rewrite HW'; auto|]. split; [auto|]. split; [auto|]. unfold A. rewrite <- Hinc. reflexivity.
  - destruct (opt_update_ok RL LA V R lambda Hsh st m) as (st' & E2 & Hok & Hu & (X & HX) & _); auto; [fold o; lia|]. fold o in E2. rewrite E2. cbn [bind].
    exists st', mp', lo, flag, rf, X. split; [auto|]. split; [auto|]. split.
    { unfold acts, lr_acts. cbn [gact fold_left lr_act absr]. unfold absr. unfold owg, ls_update in Hu. injection Hu as Hu1 Hu2. rewrite Hu1, Hu2. reflexivity. }
    split; [auto|]. split; [destruct ref; tauto|]. split; [auto|]. split; [rewrite HX; auto|auto].
Qed.

Theorem gloop_ok l fuel ref (c : bool) p lo hi st low flag rf : l < o -> ost_ok V R st -> lo <= p -> p < hi -> hi <= o - 1 -> o - 1 <= fuel ->
  let m := cmode o l p in let A := fac (match ref with None => oW st | Some r => r end) m in
  length rf = o -> match ref with None => True | Some r => r = rf /\ (c = true -> is_mat A (nth m (lens V) 0) R) end ->
  exists st' mp' low' flag' rf', for_ lo hi (fun i => gmode fuel ref (after o l) (c && (i =? p)) i)
      (st, sput sempty (sstr (seq 0 (o - 1))) (partial_mttkrp V (oW st) (after o l) R), (low, flag)) = Ok (st', mp', (low', flag')) /\ ost_ok V R st' /\
    acts (flat_map (fun i => gact ref (c && (i =? p)) (cmode o l i)) (seq lo (hi - lo))) (absr st rf (lseed low)) = absr st' rf' (lseed low') /\
    length rf' = o /\ match ref with None => True | Some r => r = rf' end /\
    fac (oW st') l = fac (oW st) l /\
    (if c then flag' = true /\ low_fit V R k low' m /\ fac (oW st') m = madd A (low_val k low') else low' = low /\ flag' = flag) /\
    (forall n, n < o -> (forall i, lo <= i < hi -> cmode o l i <> n) -> fac (oW st') n = fac (oW st) n).
Proof.
  intros Hl Hst Hlo Hp Hhi Hf m A Hrf Href.
  destruct (for_inv (fun i (x : gst) => let '(st', mp', (low', flag')) := x in ost_ok V R st' /\ (i < o - 1 -> oinv V R l i (oW st') mp') /\
      exists rf', acts (flat_map (fun i => gact ref (c && (i =? p)) (cmode o l i)) (seq lo (i - lo))) (absr st rf (lseed low)) = absr st' rf' (lseed low') /\
      length rf' = o /\ match ref with None => True | Some r => r = rf' end /\
      (forall n, n < o -> (forall j, lo <= j < i -> cmode o l j <> n) -> fac (oW st') n = fac (oW st) n) /\
      (if c then p < i -> flag' = true /\ low_fit V R k low' m /\ fac (oW st') m = madd A (low_val k low') else low' = low /\ flag' = flag))
    (fun i => gmode fuel ref (after o l) (c && (i =? p)) i) lo hi
    (st, sput sempty (sstr (seq 0 (o - 1))) (partial_mttkrp V (oW st) (after o l) R), (low, flag))) as ([[st' mp'] [low' flag']] & E & Hinv).
  - lia.
  - split; [auto|]. split; [intros Hi; apply (oinv_start V R Ho l Hl); auto|]. rewrite Nat.sub_diag. exists rf. cbn [seq flat_map]. split; [reflexivity|].
    split; [auto|]. split; [destruct ref; tauto|]. split; [auto|]. destruct c; auto. lia.
  - intros i [[x mp] [lw fl]] Hi (Hx & Hm & rfi & Ha & Hli & Hri & Hfix & Hc).
    assert (Hil : cmode o l i < o) by (apply cmode_lt; lia).
    assert (HLx : length (oW x) = o) by (destruct Hx as ((_ & HL & _) & _); auto).
    destruct (gmode_ok l fuel ref (c && (i =? p)) i x mp lw fl rfi) as (x' & mp' & lw' & fl' & rf' & X & E & Hok & Ha' & Hl' & Hr' & HW' & Hn' & Hlow'); auto; [lia|apply Hm; lia| |].
    { destruct ref as [r|]; auto. split; [auto|]. intros Hcp. apply andb_prop in Hcp as [-> Hip]. apply Nat.eqb_eq in Hip. subst i.
      apply Href. auto. }
    exists (x', mp', (lw', fl')). split; [exact E|]. split; [auto|]. split; [auto|]. exists rf'. split.
    { replace (S i - lo) with (S (i - lo)) by lia. rewrite seq_S, flat_map_app, acts_app, Ha. cbn [flat_map]. rewrite app_nil_r.
      replace (lo + (i - lo)) with i by lia. exact Ha'. }
    split; [auto|]. split; [auto|]. split.
    { intros n Hn Hj. rewrite HW', fac_setf by lia. destruct (Nat.eqb_spec n (cmode o l i)) as [->|Hne]; [exfalso; apply (Hj i); auto; lia|]. apply Hfix; auto. intros j Hjj. apply Hj. lia. }
    destruct c; cbn [andb] in Hlow'.
    + intros Hpi. destruct (Nat.eqb_spec i p) as [->|Hne].
      * destruct Hlow' as (H1 & H2 & H3). split; [auto|]. split; [auto|]. rewrite HW', fac_setf by lia. fold m. rewrite Nat.eqb_refl. rewrite H3. f_equal.
        unfold A. destruct ref; auto. fold m. apply Hfix; [apply cmode_lt; lia|]. intros j Hj Ej. unfold m in Ej. apply cmode_inj in Ej; lia.
      * destruct Hlow' as [-> ->]. destruct Hc as (H1 & H2 & H3); [lia|]. split; [auto|]. split; [auto|]. rewrite HW', fac_setf by lia.
        destruct (Nat.eqb_spec m (cmode o l i)) as [Em|_]; auto. exfalso. unfold m in Em. apply cmode_inj in Em; lia.
    + destruct Hlow' as [-> ->]. auto.
  - destruct Hinv as (Hx & Hm & rfi & Ha & Hli & Hri & Hfix & Hc). exists st', mp', low', flag', rfi. split; [exact E|]. split; [auto|]. split; [exact Ha|].
    split; [auto|]. split; [auto|]. split; [apply Hfix; auto; intros j Hj; apply cmode_ne; lia|]. split; [|exact Hfix]. destruct c; [apply Hc; lia|auto].
Qed.
End P.
