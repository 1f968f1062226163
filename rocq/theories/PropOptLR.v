(** Property theorems: the low-rank optimizers of CPD (C23) *)
From Coq Require Import List ZArith QArith Lia Bool Arith Permutation Ring.
From Verif Require Import Base Num Tensor Spec Spec3 MCommon MCP MOpt MOptLR PBase PTensor PSum PMttkrp PPart PMat PKhatri PGrad PMatAlg PResid
  PSolve PTree PDT PDTSweep PALS PropPP PPPSweep POpt POptTree POptEval POptStep PropOpt POptLR POptLR2.
Import ListNotations.
Local Close Scope Q_scope.

Section D.
Context {N : num} (RL : ring_laws N) (LA : lapack N) (V : tensor N) (R : nat) (lambda : N).
Let o := order V.
Hypothesis Hsh : tri_shaped (cholesky LA) (solve_tri LA).
Hypothesis Hlow : low_shaped (svd LA) (qr_q LA) (rnd LA).
Hypothesis Ho : 3 <= o <= 31.
Context (rs : bool) (k : nat).
Hypothesis HkR : k <= R.
Hypothesis HkV : forall n, n < o -> k <= nth n (lens V) 0.
Let trunc := trunc_of (svd LA) (qr_q LA) (rnd LA) rs.
Let inc := lr_inc trunc (cholesky LA) (solve_tri LA) k.
Let solve := chol_solve (cholesky LA) (solve_tri LA).
Let acts := lr_acts solve inc lambda V R.

Lemma racts_app a b r : acts (a ++ b) r = acts b (acts a r).
Proof. unfold acts, lr_acts. apply fold_left_app. Qed.
Lemma low_scale lo n : low_fit V R k lo n -> (n < o) ->
  exists U', assign false (lU lo) sij [prodt [(lU lo, sij); (lS lo, [ch_j])]] = Ok U' /\ is_mat U' (nth n (lens V) 0) k /\ mmul U' (lVT lo) = low_val k lo.
Proof.
  intros (H1 & H2 & H3 & H4) Hn. exists (mmul (lU lo) (mdiag k (fun i => at_ (lS lo) [i]))). split; [|split; [eapply mmul_mat; eauto; apply mdiag_mat|reflexivity]].
  rewrite (mmul_diag_r RL _ (nth n (lens V) 0) k) by auto. set (r := nth n (lens V) 0) in *.
  change (@mk N r k) with (@mk N (d3 r k 0 ch_i) (d3 r k 0 ch_j)). apply (assign_mat (d3 r k 0)).
  - discriminate.
  - apply H1.
  - intros t [<-|[]] p [<-|[<-|[]]]; cbn [fst snd map]; [apply H1|rewrite H2; reflexivity].
  - intros i j Hi Hj. cbn [tsval fold_left].
    set (fg := [((lU lo, sij), fun e : env => el (lU lo) (e ch_i) (e ch_j)); ((lS lo, [ch_j]), fun e : env => at_ (lS lo) [e ch_j])]).
    change (prodt [(lU lo, sij); (lS lo, [ch_j])]) with (mkTerm n1 (map fst fg)).
    rewrite (tval_rep RL (d3 r k 0) [ch_i; ch_j] fg []).
    + cbn [sumc]. rewrite (Rmul_1_l RL). unfold fg. cbn [bigprod fold_right map fst snd]. unfold eab, upd. cbn. rewrite (Rmul_comm RL (at_ _ _) n1), (Rmul_1_l RL). auto.
    + repeat constructor; cbn [fst snd]; first [apply H1|auto].
    + constructor.
    + intros z. cbn. intuition.
    + intros z [<-|[<-|[]]]; unfold eab, upd; cbn; auto.
    + intros q [<-|[<-|[]]]; cbn [snd]; intros e1 e2 H12; rewrite ?H12; auto.
Qed.
Lemma partial_at_l W W' l : l < o -> fac W l = fac W' l -> partial_mttkrp V W (after o l) R = partial_mttkrp V W' (after o l) R.
Proof.
  intros Hl E. apply partial_ext. intros m Hm Hn. destruct (Nat.eq_dec m l) as [->|Hne]; auto. exfalso. apply Hn. apply after_in; auto.
Qed.
Lemma dchr l : l < o -> dV (lens V) ch_star R (chr l) = nth l (lens V) 0.
Proof. intros. apply (DT_d V R (Ho1 V Ho)). auto. Qed.

(** ** two subtrees.  q full sweeps done, then [first] says which half comes next *)
Definition cacheof (first : bool) (s : dl_st N) := if first then dl_c1 s else dl_c2 s.
Definition dl_good (s : dl_st N) (q : nat) (first : bool) : Prop :=
  let sp := (q / 5) mod (o - 1) in let l1 := o - 1 - sp in let l2 := o - 2 - sp in
  let b := dlb s in let l := if first then l1 else l2 in let l' := if first then l2 else l1 in
  (ost_ok V R (ds b) /\ good_tree (o - 1) (dtree b) /\ dtop b = sstr (seq 0 (o - 1)) /\ dseq b = obuf o /\ dfirst b = first /\
  dix1 b = after o l1 /\ dix2 b = after o l2 /\ dl1 b = l1 /\ dl2 b = l2 /\ dspecial b = sp /\ dl_count s = q mod 5) /\
  (1 <= q mod 5 -> cacheof (negb first) s = Some (partial_mttkrp V (oW (ds b)) (after o l') R)) /\
  (2 <= q mod 5 -> dl_flag s = true /\ exists W0, factors_ok V W0 R /\ cacheof first s = Some (partial_mttkrp V W0 (after o l) R) /\
     low_fit V R k (dl_low s) l /\ fac (oW (ds b)) l = madd (fac W0 l) (low_val k (dl_low s))).

Lemma dl_init_ok s q first : dl_good s q first ->
  let sp := (q / 5) mod (o - 1) in let l := if first then o - 1 - sp else o - 2 - sp in
  let T := partial_mttkrp V (oW (ds (dlb s))) (after o l) R in
  exists lo, dl_map_init V s l = Ok (T, (lo, (if first then Some T else dl_c1 s), (if first then dl_c2 s else Some T))) /\ lseed lo = lseed (dl_low s).
Proof.
  intros ((Hst & Hg & Htop & Hseq & Hfi & H1 & H2 & Hl1 & Hl2 & Hsp & Hc) & Ha & Hb) sp l T.
  assert (Hspb : sp < o - 1) by (apply Nat.mod_upper_bound; lia). assert (Hl : l < o) by (unfold l; destruct first; lia).
  fold sp in Ha, Hb, H1, H2, Hl1, Hl2, Hsp.
  unfold dl_map_init. rewrite Hfi, Hc, Hseq. fold o. destruct (dl_flag s && (1 <? q mod 5)) eqn:E.
  - apply andb_prop in E as [_ E]. apply Nat.ltb_lt in E. destruct (Hb E) as (Hflag & W0 & HW0 & Hcache & Hfit & Hval). fold l in Hcache, Hfit, Hval.
    rewrite map_init_seq_ok by (auto; lia). cbn [bind].
    rewrite (node_lens_ok V R Ho (oW (ds (dlb s))) (fun m => Ok m) (fun m => m)).
    2:{ apply Hst. }
    2:{ intros p Hp. apply after_in in Hp; lia. }
    2:{ intros p Hp. apply after_in in Hp; auto. tauto. }
    cbn [bind]. unfold dl_update_cached. fold o. rewrite map_init_seq_ok by (auto; lia). cbn [bind].
    destruct (low_scale (dl_low s) l Hfit Hl) as (U' & EU & HU & HUV). rewrite EU. cbn [bind].
    unfold cacheof in Hcache. rewrite Hcache. cbn [of_opt bind]. rewrite obuf_take by lia. cbn [bind].
    assert (EC := cached_add RL V R Ho W0 U' (lVT (dl_low s)) l k Hl HW0). fold o in EC. rewrite EC.
    2:{ rewrite dchr by auto. auto. }
    2:{ apply Hfit. }
    cbn [bind]. rewrite HUV.
    replace (partial_mttkrp V (setf W0 l (madd (fac W0 l) (low_val k (dl_low s)))) (after o l) R) with T.
    2:{ unfold T. apply partial_at_l; auto. rewrite fac_setf by (destruct HW0 as (_ & -> & _); auto). rewrite Nat.eqb_refl. auto. }
    eexists. split; [reflexivity|]. reflexivity.
  - rewrite (fresh_top_ok RL V R Ho) by (auto; apply Hst). cbn [bind]. exists (dl_low s). split; auto.
Qed.

Lemma for_dl fuel count (first : bool) p lo hi x t l : l < o -> p = (if first then o - 2 else 0) ->
  for_ lo hi (dl_mode LA fuel k rs V (mscal lambda (mid R)) t (after o l) first count) x =
  for_ lo hi (fun i => gmode LA V R lambda rs k t fuel None (after o l) ((1 <=? count) && (i =? p)) i) x.
Proof.
  intros Hl ->. apply for_ext. intros i [[st mp] [lw fl]] Hi. unfold dl_mode, gmode. fold o.
  rewrite after_length by auto. replace (o - 1 - 1) with (o - 2) by lia.
  assert (E : ((first && (i =? o - 2)) || (negb first && (i =? 0))) && (1 <=? count) = (1 <=? count) && (i =? (if first then o - 2 else 0))).
  { destruct first; cbn [negb andb orb]; rewrite ?orb_false_r; apply andb_comm. }
  rewrite E. destruct (leaf_M fuel V (oW st) t (after o l) mp i) as [[mp' M]|e]; cbn [bind]; auto. 
Qed.
Lemma cmode_first sp : sp < o - 1 -> map (cmode o (o - 1 - sp)) (seq sp (o - 1 - sp)) = seq 0 (o - 1 - sp).
Proof.
  intros H. apply nth_ext with (d:=0) (d':=0); rewrite map_length, !seq_length; auto. intros i Hi.
  rewrite (nth_map_lt _ _ _ 0) by (rewrite seq_length; auto). rewrite !seq_nth by auto. cyc.
Qed.
Lemma cmode_second sp : sp < o - 1 -> map (cmode o (o - 2 - sp)) (seq 0 (sp + 1)) = seq (o - 1 - sp) (sp + 1).
Proof.
  intros H. apply nth_ext with (d:=0) (d':=0); rewrite map_length, !seq_length; auto. intros i Hi.
  rewrite (nth_map_lt _ _ _ 0) by (rewrite seq_length; auto). rewrite !seq_nth by auto. cyc.
Qed.
Lemma flat_map_map {A B C} (f : B -> list C) (g : A -> B) l : flat_map f (map g l) = flat_map (fun x => f (g x)) l.
Proof. induction l; cbn; auto. rewrite IHl. auto. Qed.
Lemma flat_map_single {A B} (f : A -> B) l : flat_map (fun x => [f x]) l = map f l.
Proof. induction l; cbn; congruence. Qed.
Lemma flat_map_ext_in {A B} (f g : A -> list B) l : (forall x, In x l -> f x = g x) -> flat_map f l = flat_map g l.
Proof. induction l; cbn; auto. intros H. rewrite H, IHl; auto. Qed.
Definition half_acts (q : nat) (first : bool) : list action :=
  let sp := (q / 5) mod (o - 1) in let low := negb (q mod 5 =? 0) in
  if first then map Full (seq 0 (o - 2 - sp)) ++ low_act low (o - 2 - sp) else low_act low (o - 1 - sp) ++ map Full (seq (o - sp) sp).
Lemma half_acts_eq q (first : bool) : let sp := (q / 5) mod (o - 1) in
  let l := if first then o - 1 - sp else o - 2 - sp in let lo := if first then sp else 0 in let hi := if first then o - 1 else sp + 1 in
  flat_map (fun i => @gact N None ((1 <=? q mod 5) && (i =? (if first then o - 2 else 0))) (cmode o l i)) (seq lo (hi - lo)) = half_acts q first.
Proof.
  intros sp l lo hi. assert (Hspb : sp < o - 1) by (apply Nat.mod_upper_bound; lia). unfold half_acts. fold sp.
  assert (Ec : (1 <=? q mod 5) = negb (q mod 5 =? 0)) by (destruct (q mod 5); auto). rewrite Ec. set (c := negb (q mod 5 =? 0)). clearbody c. clear Ec.
  assert (EL : forall m, @gact N None c m = low_act c m) by (intros m; unfold gact, low_act; auto).
  destruct first; unfold l, lo, hi in *.
  - replace (o - 1 - sp) with (S (o - 2 - sp)) at 1 by lia. rewrite seq_S, flat_map_app. f_equal.
    + rewrite (flat_map_ext_in _ (fun i => [Full (cmode o (o - 1 - sp) i)])).
      * rewrite (flat_map_single (fun i => Full (cmode o (o - 1 - sp) i))). rewrite <- (map_map (cmode o (o - 1 - sp)) Full). f_equal.
        assert (E := cmode_first sp Hspb). replace (o - 1 - sp) with (S (o - 2 - sp)) in E at 2 3 by lia. rewrite !seq_S, map_app in E.
        apply app_inj_tail in E. apply E.
      * intros i Hi. apply in_seq in Hi. destruct (Nat.eqb_spec i (o - 2)); [lia|]. rewrite andb_false_r. reflexivity.
    + cbn [flat_map]. rewrite app_nil_r. replace (sp + (o - 2 - sp)) with (o - 2) by lia. rewrite Nat.eqb_refl, andb_true_r, EL. f_equal. cyc.
  - rewrite Nat.sub_0_r, Nat.add_1_r. cbn [seq flat_map]. rewrite Nat.eqb_refl, andb_true_r, EL. f_equal.
    + f_equal. cyc.
    + rewrite (flat_map_ext_in _ (fun i => [Full (cmode o (o - 2 - sp) i)])).
      * rewrite (flat_map_single (fun i => Full (cmode o (o - 2 - sp) i))). rewrite <- (map_map (cmode o (o - 2 - sp)) Full). f_equal.
        assert (E := cmode_second sp Hspb). rewrite Nat.add_1_r in E. cbn [seq map] in E. injection E as _ E. rewrite E. f_equal. lia.
      * intros i Hi. apply in_seq in Hi. destruct (Nat.eqb_spec i 0); [lia|]. rewrite andb_false_r. reflexivity.
Qed.

Lemma mod5 q : (q + 1) mod 5 = (if q mod 5 + 1 =? 5 then 0 else q mod 5 + 1) /\ (q + 1) / 5 = (if q mod 5 + 1 =? 5 then q / 5 + 1 else q / 5).
Proof.
  assert (H := Nat.div_mod q 5 ltac:(lia)). assert (Hb := Nat.mod_upper_bound q 5 ltac:(lia)). set (a := q / 5) in *. set (b := q mod 5) in *. clearbody a b.
  destruct (Nat.eqb_spec (b + 1) 5).
  - replace (q + 1) with (0 + (a + 1) * 5) by lia. rewrite Nat.mod_add, Nat.div_add by lia. split; reflexivity.
  - replace (q + 1) with (b + 1 + a * 5) by lia. rewrite Nat.mod_add, Nat.div_add by lia. rewrite Nat.mod_small, Nat.div_small by lia. auto.
Qed.
Lemma succ_mod a n : 2 <= n -> (a + 1) mod n = if S (a mod n) =? n then 0 else S (a mod n).
Proof.
  intros H. rewrite <- Nat.add_mod_idemp_l by lia. assert (Hb := Nat.mod_upper_bound a n ltac:(lia)). destruct (Nat.eqb_spec (S (a mod n)) n).
  - replace (a mod n + 1) with n by lia. apply Nat.mod_same. lia.
  - rewrite Nat.mod_small; lia.
Qed.

Lemma left_next n a a' : 3 <= n -> a < n - 1 -> a' = (if S a =? n - 1 then 0 else S a) ->
  (if negb (a' =? 0) then (((n - 1 - a) + n - 1) mod n, ((n - 2 - a) + n - 1) mod n) else (n - 1, (n - 1 + n - 1) mod n)) = (n - 1 - a', n - 2 - a').
Proof.
  clear. intros H Ha ->. destruct (Nat.eqb_spec (S a) (n - 1)).
  - cbn [Nat.eqb negb]. f_equal; [lia|]. replace (n - 1 + n - 1) with (n - 2 + 1 * n) by lia. rewrite Nat.mod_add by lia. rewrite Nat.mod_small; lia.
  - cbn [Nat.eqb negb]. replace (n - 1 - a + n - 1) with (n - 1 - S a + 1 * n) by lia. replace (n - 2 - a + n - 1) with (n - 2 - S a + 1 * n) by lia.
    rewrite !Nat.mod_add by lia. rewrite !Nat.mod_small by lia. reflexivity.
Qed.
Theorem dl_step_ok fuel s q first rf : o - 1 <= fuel -> length rf = o -> dl_good s q first ->
  exists s' rf', dl_step LA fuel k rs V (mscal lambda (mid R)) s = Ok ((1 # 2)%Q, s') /\ length rf' = o /\
    dl_good s' (if first then q else q + 1) (negb first) /\
    acts (half_acts q first) (absr (ds (dlb s)) rf (lseed (dl_low s))) = absr (ds (dlb s')) rf' (lseed (dl_low s')) /\
    (let l := let sp := (q / 5) mod (o - 1) in if first then o - 1 - sp else o - 2 - sp in
     cacheof first s' = Some (partial_mttkrp V (oW (ds (dlb s'))) (after o l) R)).
Proof.
  intros Hf Hrf Hgood. destruct (dl_init_ok s q first Hgood) as (lo1 & Einit & Hseed).
  destruct Hgood as ((Hst & Hg & Htop & Hseq & Hfi & H1 & H2 & Hl1 & Hl2 & Hsp & Hc) & Ha & Hb).
  set (sp := (q / 5) mod (o - 1)) in *. assert (Hspb : sp < o - 1) by (apply Nat.mod_upper_bound; lia).
  set (l := if first then o - 1 - sp else o - 2 - sp) in *. set (l' := if first then o - 2 - sp else o - 1 - sp) in *.
  assert (Hl : l < o) by (unfold l; destruct first; lia). assert (Hl' : l' < o) by (unfold l'; destruct first; lia).
  unfold dl_step. rewrite Hfi, H1, H2, Hl1, Hl2, Hsp, Htop, Hc. fold o.
  replace (if first then after o (o - 1 - sp) else after o (o - 2 - sp)) with (after o l) by (unfold l; destruct first; auto).
  fold l. rewrite Einit. cbn [bind]. rewrite after_length by auto.
  set (T := partial_mttkrp V (oW (ds (dlb s))) (after o l) R) in *.
  set (lo := if first then sp else 0). set (hi := if first then o - 1 else sp + 1). set (p := if first then o - 2 else 0).
  assert (Er : dt_range first sp (o - 1) = (lo, hi)) by (unfold dt_range, lo, hi; destruct first; auto; f_equal; lia). rewrite Er.
  assert (Hp : lo <= p < hi /\ hi <= o - 1) by (unfold lo, hi, p; destruct first; lia).
  assert (Hcp : cmode o l p = l') by (unfold l, l', p; destruct first; cyc).
  rewrite (for_dl fuel (q mod 5) first p lo hi _ (dtree (dlb s)) l Hl eq_refl).
  destruct (gloop_ok RL LA V R lambda Hsh Hlow Ho rs k HkR HkV (dtree (dlb s)) Hg l fuel None (1 <=? q mod 5) p lo hi (ds (dlb s)) lo1 (dl_flag s) rf)
    as (st' & mp' & lo2 & flag' & rf' & E & Hok & Hacts & Hrf' & _ & Hfl & Hlo2 & Hfix); auto; try lia.
  fold o in E, Hlo2, Hacts, Hfix, Hfl. rewrite Hcp in Hlo2. fold T in E. rewrite E. cbn [bind]. clear E.
  rewrite Hseed in Hacts. unfold lo, hi, p, l, sp in Hacts. rewrite half_acts_eq in Hacts. fold sp in Hacts.
  assert (HT : T = partial_mttkrp V (oW st') (after o l) R) by (unfold T; apply partial_at_l; auto).
  assert (Hbnd := Nat.mod_upper_bound q 5 ltac:(lia)).
  destruct (mod5 q) as [M1 M2].
  destruct first; cbn [negb] in *.
  - rewrite andb_false_r. eexists _, rf'. split; [reflexivity|]. split; [auto|]. split; [|split; [exact Hacts|cbn [cacheof dl_c1]; rewrite HT; reflexivity]].
    unfold dl_good. fold sp. cbn [dlb ds dtree dtop dseq dfirst dix1 dix2 dl1 dl2 dspecial dl_count dl_flag dl_low cacheof dl_c1 dl_c2 negb].
    split; [auto 15|]. split.
    + intros _. rewrite HT. reflexivity.
    + intros Hc2. assert (E1 : (1 <=? q mod 5) = true) by (apply Nat.leb_le; lia). rewrite E1 in Hlo2. destruct Hlo2 as (F1 & F2 & F3). split; [auto|].
      exists (oW (ds (dlb s))). split; [apply Hst|]. split; [apply Ha; lia|]. split; [exact F2|]. exact F3.
  - rewrite andb_true_r. destruct (Nat.eqb_spec (q mod 5 + 1) 5) as [E5|E5].
    + set (sp' := (sp + 1) mod (o - 1)).
      assert (Esp : ((q + 1) / 5) mod (o - 1) = sp').
      { rewrite M2. unfold sp', sp. rewrite Nat.add_mod_idemp_l by lia. reflexivity. }
      assert (Esp' : sp' = if S sp =? o - 1 then 0 else S sp).
      { unfold sp'. rewrite succ_mod by lia. rewrite (Nat.mod_small sp) by lia. reflexivity. }
      assert (Hlr := left_next o sp sp' ltac:(clear - Ho; lia) Hspb Esp').
      rewrite Hlr. assert (Hsp'b : sp' < o - 1) by (apply Nat.mod_upper_bound; clear - Ho; lia).
      rewrite !update_indexes_ok by (rewrite ?after_length by (clear - Ho Hspb; clearbody sp; lia); clear - Ho Hsp'b; clearbody sp'; lia). cbn [bind]. eexists _, rf'. split; [reflexivity|]. split; [auto|].
      split; [|split; [exact Hacts|cbn [cacheof dl_c2]; rewrite HT; reflexivity]].
      unfold dl_good. rewrite Esp, M1. cbn [dlb ds dtree dtop dseq dfirst dix1 dix2 dl1 dl2 dspecial dl_count dl_flag dl_low negb].
      split; [auto 15|]. split; lia.
    + assert (Esp : ((q + 1) / 5) mod (o - 1) = sp) by (rewrite M2; reflexivity).
      eexists _, rf'. split; [reflexivity|]. split; [auto|]. split; [|split; [exact Hacts|cbn [cacheof dl_c2]; rewrite HT; reflexivity]].
      unfold dl_good. rewrite Esp, M1. cbn [dlb ds dtree dtop dseq dfirst dix1 dix2 dl1 dl2 dspecial dl_count dl_flag dl_low cacheof dl_c1 dl_c2 negb].
      split; [auto 15|]. split.
      * intros _. rewrite HT. reflexivity.
      * intros Hc2. assert (E1 : (1 <=? q mod 5) = true) by (apply Nat.leb_le; lia). rewrite E1 in Hlo2. destruct Hlo2 as (F1 & F2 & F3). split; [auto|].
        exists (oW (ds (dlb s))). split; [apply Hst|]. split; [apply Ha; lia|]. split; [exact F2|]. exact F3.
Qed.

Lemma dl_new_ok st : ost_ok V R st -> exists s, dl_new o st = Ok s /\ dl_good s 0 true /\ ds (dlb s) = st /\ lseed (dl_low s) = 0.
Proof.
  intros Hst. destruct (dt_new_ok V R Ho st Hst) as (b & E & (H1 & H2 & H3 & H4 & H5 & H6 & H7 & H8 & H9 & H10) & Hd). unfold dl_new. fold o in E. rewrite E. cbn [bind].
  eexists. split; [reflexivity|]. split; [|split; [exact Hd|reflexivity]]. unfold dl_good. rewrite Nat.div_0_l, Nat.mod_0_l, Nat.mod_0_l by lia.
  rewrite !Nat.sub_0_r. cbn [dlb dl_count dl_flag]. split; [auto 15|]. split; lia.
Qed.
Lemma half_acts_half h : half_acts (h / 2) (Nat.even h) = dl_half o h.
Proof.
  unfold half_acts, dl_half. rewrite Nat.div_div by lia. reflexivity.
Qed.
Lemma half_next h : (if Nat.even h then h / 2 else h / 2 + 1) = S h / 2 /\ negb (Nat.even h) = Nat.even (S h).
Proof.
  split; [|rewrite Nat.even_succ, <- Nat.negb_even; auto]. clear. destruct (Nat.Even_or_Odd h) as [[m ->]|[m ->]].
  - replace (Nat.even (2 * m)) with true by (symmetry; apply Nat.even_spec; exists m; auto).
    replace (2 * m) with (m * 2) by lia. replace (S (m * 2)) with (m * 2 + 1) by lia. rewrite Nat.div_mul, Nat.div_add_l by lia. cbn. lia.
  - replace (Nat.even (2 * m + 1)) with false by (rewrite <- Nat.negb_odd; symmetry; apply negb_false_iff, Nat.odd_spec; exists m; auto).
    replace (2 * m + 1) with (m * 2 + 1) by lia. replace (S (m * 2 + 1)) with ((m + 1) * 2) by lia. rewrite Nat.div_mul, Nat.div_add_l by lia. cbn. lia.
Qed.
Theorem dl_steps_ok fuel st h rf : o - 1 <= fuel -> ost_ok V R st -> length rf = o ->
  exists s0 q s, dl_new o st = Ok s0 /\ steps h (dl_step LA fuel k rs V (mscal lambda (mid R))) s0 = Ok (q, s) /\
    dl_good s (h / 2) (Nat.even h) /\ (q == Z.of_nat h # 2)%Q /\
    exists rf', length rf' = o /\ acts (dl_schedule o h) (absr st rf 0) = absr (ds (dlb s)) rf' (lseed (dl_low s)).
Proof.
  intros Hf Hst Hrf. destruct (dl_new_ok st Hst) as (s0 & E0 & Hg0 & Es & Eseed). exists s0.
  assert (H : exists q s, steps h (dl_step LA fuel k rs V (mscal lambda (mid R))) s0 = Ok (q, s) /\ dl_good s (h / 2) (Nat.even h) /\ (q == Z.of_nat h # 2)%Q /\
    exists rf', length rf' = o /\ acts (dl_schedule o h) (absr st rf 0) = absr (ds (dlb s)) rf' (lseed (dl_low s))).
  { induction h as [|h IH].
    - exists 0%Q, s0. split; [reflexivity|]. split; [exact Hg0|]. split; [reflexivity|]. exists rf. rewrite Es, Eseed. split; [auto|reflexivity].
    - destruct IH as (q & s & E & Hg & Hq & rf1 & Hr1 & Hu). destruct (dl_step_ok fuel s (h / 2) (Nat.even h) rf1 Hf Hr1 Hg) as (s' & rf2 & E' & Hr2 & Hg' & Hu' & _).
      exists (q + (1 # 2))%Q, s'. cbn [steps]. rewrite E. cbn [bind]. rewrite E'. cbn [bind]. split; [auto|].
      destruct (half_next h) as [N1 N2]. rewrite N1, N2 in Hg'. split; [exact Hg'|]. split; [rewrite Hq; unfold Qeq; cbn; lia|]. exists rf2. split; [auto|].
      unfold dl_schedule. rewrite flat_map_seq_S. rewrite <- half_acts_half. rewrite racts_app. fold (dl_schedule o h). rewrite Hu. exact Hu'. }
  destruct H as (q & s & H). exists q, s. split; auto.
Qed.

(** ** multi-sweep *)
Definition cached_in (j n : nat) : bool := o - 1 - n <? j.
Definition ml_good (s : ml_st N) (j : nat) : Prop :=
  let b := mlb s in let ln := o - 1 - j mod o in
  ms_good V R b (match j with 0 => o | S k => o - 1 - k mod o end) /\
  length (ml_is s) = o /\ length (ml_ct s) = o /\ length (ml_old s) = o /\
  (forall n, n < o -> nth n (ml_is s) false = cached_in j n) /\
  (forall n, n < o -> cached_in j n = true -> is_mat (fac (ml_old s) n) (nth n (lens V) 0) R /\
     fac (ml_ct s) n = partial_mttkrp V (ml_old s) (after o n) R) /\
  (cached_in j ln = true -> ml_flag s = true /\ low_fit V R k (ml_low s) ln /\
     fac (oW (mss b)) ln = madd (fac (ml_old s) ln) (low_val k (ml_low s))).
Lemma ml_new_ok st : ost_ok V R st -> exists s, ml_new o st = Ok s /\ ml_good s 0 /\ mss (mlb s) = st /\ lseed (ml_low s) = 0 /\ ml_old s = repeat tnil o.
Proof.
  intros Hst. destruct (ms_new_ok V R Ho st Hst) as (b & E & H1 & Hd). unfold ml_new. fold o in E. rewrite E. cbn [bind].
  eexists. split; [reflexivity|]. split; [|auto]. unfold ml_good. cbn [mlb ml_is ml_ct ml_old ml_flag ml_low].
  split; [exact H1|]. rewrite !repeat_length. split; [auto|]. split; [auto|]. split; [auto|]. split; [|split].
  - intros n Hn. unfold cached_in. rewrite nth_rep; auto. 
  - intros n Hn Hc. unfold cached_in in Hc. apply Nat.ltb_lt in Hc. lia.
  - intros Hc. unfold cached_in in Hc. apply Nat.ltb_lt in Hc. lia.
Qed.
Lemma obuf_cstr : cstr (obuf o) = Ok (letters chr o).
Proof.
  apply holds_cstr.
  - assert (HL : length (letters chr o) = o) by (unfold letters; rewrite map_length, seq_length; auto). split; rewrite HL.
    + intros i Hi. rewrite obuf_nth by lia. unfold letters. rewrite (nth_map_lt _ _ _ 0) by (rewrite seq_length; lia). rewrite seq_nth by lia. reflexivity.
    + unfold obuf, lbuf. rewrite nth_error_app1 by (rewrite map_length, app_length, map_length, seq_length; cbn; lia).
      rewrite nth_error_map. rewrite nth_error_app2 by (rewrite map_length, seq_length; lia). rewrite map_length, seq_length, Nat.sub_diag. reflexivity.
  - intros c Hc. apply in_map_iff in Hc as (m & <- & Hm). apply in_seq in Hm. rewrite chr_small by lia. lia.
Qed.
Lemma take_alet l : l < o -> exists tmp0 tmp, strncpy (newbuf o) 0 (letters chr o) = Ok tmp0 /\ bset tmp0 l ch_amp = Ok tmp /\ take o tmp = Ok (alet V l).
Proof.
  intros Hl. assert (HL : length (letters chr o) = o) by (unfold letters; rewrite map_length, seq_length; auto).
  destruct (strncpy_ok (newbuf o) 0 (letters chr o)) as (b & E & Lb & Pb); [rewrite newbuf_length; lia|]. rewrite newbuf_length in Lb.
  exists b, (lset b l (Some ch_amp)). split; [auto|]. split; [apply bset_ok; lia|]. unfold alet. apply take_spec. intros i Hi.
  rewrite lset_nth_error. destruct (Nat.eqb_spec i l); [destruct (Nat.ltb_spec l (length b)); [auto|lia]|]. rewrite Pb. rewrite HL. cbn [Nat.leb andb Nat.add]. destruct (Nat.ltb_spec i o); [|lia].
  rewrite Nat.sub_0_r. unfold letters. rewrite (nth_map_lt _ _ _ 0) by (rewrite seq_length; lia). rewrite seq_nth by lia. reflexivity.
Qed.

Lemma ml_init_ok s j : ml_good s j ->
  let ln := o - 1 - j mod o in let T := partial_mttkrp V (oW (mss (mlb s))) (after o ln) R in
  exists lo, ml_map_init k V s ln = Ok (T, (lo, lset (ml_is s) ln true, setf (ml_ct s) ln T, setf (ml_old s) ln (fac (oW (mss (mlb s))) ln))) /\
    lseed lo = lseed (ml_low s).
Proof.
  intros ((Hst & Hg & Htop & Hseq & Hix & Hleft) & L1 & L2 & L3 & His & Hct & Hnext) ln T.
  assert (Hl : ln < o) by (unfold ln; clear - Ho; lia). fold ln in Hnext.
  assert (HLW : length (oW (mss (mlb s))) = o) by (destruct Hst as ((_ & HL & _) & _); auto).
  assert (HW : factors_ok V (oW (mss (mlb s))) R) by apply Hst.
  assert (HWl : lget (oW (mss (mlb s))) ln = Ok (fac (oW (mss (mlb s))) ln)) by (apply (lget_ok _ _ tnil); lia).
  unfold ml_map_init. rewrite (lget_ok _ _ false) by lia. cbn [bind]. rewrite His by auto. rewrite Hseq. fold o.
  destruct (ml_flag s && cached_in j ln) eqn:E.
  - apply andb_prop in E as [_ E]. destruct (Hct ln Hl E) as [Hold Ect]. destruct (Hnext E) as (_ & Hfit & Hval).
    rewrite map_init_seq_ok by (auto; clear - Ho; lia). cbn [bind].
    rewrite (node_lens_ok V R Ho (oW (mss (mlb s))) (fun m => Ok m) (fun m => m)).
    2:{ auto. }
    2:{ intros p Hp. apply after_in in Hp; lia. }
    2:{ intros p Hp. apply after_in in Hp; auto. tauto. }
    cbn [bind]. rewrite (lget_ok _ _ tnil) by lia. change (nth ln (ml_ct s) tnil) with (fac (ml_ct s) ln). cbn [bind].
    unfold ml_update_cached. fold o. rewrite map_init_seq_ok by (auto; clear - Ho; lia). cbn [bind].
    destruct (low_scale (ml_low s) ln Hfit Hl) as (U' & EU & HU & HUV). rewrite EU. cbn [bind].
    rewrite obuf_cstr. cbn [bind]. destruct (take_alet ln Hl) as (tmp0 & tmp & E1 & E2 & E3). rewrite E1. cbn [bind]. rewrite E2. cbn [bind].
    rewrite lput_ok by exact Hl. cbn [bind]. rewrite obuf_take by (clear - Ho; lia). cbn [bind]. rewrite E3. cbn [bind].
    set (W0 := setf (oW (mss (mlb s))) ln (fac (ml_old s) ln)).
    assert (HW0 : factors_ok V W0 R) by (apply setf_factors; auto).
    assert (HW0l : fac W0 ln = fac (ml_old s) ln) by (unfold W0; rewrite fac_setf by lia; rewrite Nat.eqb_refl; auto).
    destruct (cached_two RL V R Ho W0 U' (lVT (ml_low s)) ln k Hl HW0) as (temp & ET & EC).
    { rewrite dchr by auto. auto. }
    { apply Hfit. }
    fold o in ET, EC. rewrite ET. cbn [bind]. rewrite Ect. rewrite (partial_at_l (ml_old s) W0 ln Hl (eq_sym HW0l)). rewrite EC. cbn [bind].
    rewrite HUV, HW0l.
    replace (partial_mttkrp V (setf W0 ln (madd (fac (ml_old s) ln) (low_val k (ml_low s)))) (after o ln) R) with T.
    2:{ unfold T. apply partial_at_l; auto. rewrite fac_setf by (destruct HW0 as (_ & -> & _); auto). rewrite Nat.eqb_refl. auto. }
    rewrite lput_ok by lia. cbn [bind]. rewrite HWl. cbn [bind]. rewrite !lput_ok by lia. cbn [bind]. eexists. split; [reflexivity|]. reflexivity.
  - rewrite (fresh_top_ok RL V R Ho) by auto. cbn [bind]. fold o T. rewrite lput_ok by lia. cbn [bind]. rewrite HWl. cbn [bind]. rewrite !lput_ok by lia. cbn [bind].
    eexists. split; reflexivity.
Qed.
Lemma for_ml fuel is old x t l c : l < o -> length is = o -> c = nth (cmode o l (o - 2)) is false ->
  for_ 0 (o - 1) (ml_mode LA fuel k rs V (mscal lambda (mid R)) t (after o l) is old) x =
  for_ 0 (o - 1) (fun i => gmode LA V R lambda rs k t fuel (Some old) (after o l) (c && (i =? o - 2)) i) x.
Proof.
  intros Hl HL ->. apply for_ext. intros i [[st mp] [lw fl]] Hi. unfold ml_mode, gmode. fold o.
  rewrite after_length by auto. replace (o - 1 - 1) with (o - 2) by lia.
  destruct (leaf_M fuel V (oW st) t (after o l) mp i) as [[mp' M]|e]; cbn [bind]; auto.
  rewrite (lget_ok _ _ 0) by (rewrite after_length; lia). rewrite after_nth by lia. cbn [bind].
  assert (Hm : cmode o l i < o) by (apply cmode_lt; lia).
  rewrite (lget_ok _ _ false) by lia. cbn [bind].
  destruct (Nat.eqb_spec i (o - 2)) as [->|Hne].
  - rewrite andb_true_r. cbn [negb]. rewrite orb_false_r. destruct (nth (cmode o l (o - 2)) is false); cbn [negb]; auto.
  - rewrite andb_false_r. cbn [negb]. rewrite orb_true_r. auto.
Qed.
Lemma left_step j : let ln := o - 1 - j mod o in cmode o ln (o - 2) = o - 1 - S j mod o /\ cached_in j (o - 1 - S j mod o) = (o <=? j + 1) /\ o - 1 - S j mod o <> ln.
Proof.
  intros ln. unfold ln, cached_in. assert (Hb := Nat.mod_upper_bound j o ltac:(lia)). assert (Hd := Nat.div_mod j o ltac:(lia)).
  replace (S j) with (j + 1) by lia. rewrite succ_mod by lia.
  assert (Hle : j mod o <= j) by (apply Nat.mod_le; lia). assert (Hsm : j < o -> j mod o = j) by apply Nat.mod_small.
  set (a := j mod o) in *. clearbody a. clear - Ho Hb Hle Hsm.
  destruct (Nat.eqb_spec (S a) o) as [E|E].
  - split; [cyc|]. split; [|lia]. destruct (Nat.ltb_spec (o - 1 - (o - 1 - 0)) j), (Nat.leb_spec o (j + 1)); auto; lia.
  - split; [cyc|]. split; [|lia]. destruct (Nat.ltb_spec (o - 1 - (o - 1 - S a)) j), (Nat.leb_spec o (j + 1)); auto; lia.
Qed.
Lemma cached_next j n : n < o -> cached_in (S j) n = (n =? o - 1 - j mod o) || cached_in j n.
Proof.
  intros Hn. unfold cached_in. assert (Hb := Nat.mod_upper_bound j o ltac:(lia)).
  assert (Hle : j mod o <= j) by (apply Nat.mod_le; lia). assert (Hsm : j < o -> j mod o = j) by apply Nat.mod_small.
  set (a := j mod o) in *. clearbody a. clear - Ho Hb Hle Hsm Hn.
  destruct (Nat.eqb_spec n (o - 1 - a)) as [->|Hne]; cbn [orb].
  - apply Nat.ltb_lt. lia.
  - destruct (Nat.ltb_spec (o - 1 - n) (S j)), (Nat.ltb_spec (o - 1 - n) j); auto; lia.
Qed.
Lemma ml_acts_eq (old : list (tensor N)) j : let ln := o - 1 - j mod o in
  Snap ln :: flat_map (fun i => gact (Some old) ((o <=? j + 1) && (i =? o - 2)) (cmode o ln i)) (seq 0 (o - 1 - 0)) = ml_step_acts o j.
Proof.
  intros ln. assert (Hl : ln < o) by (unfold ln; clear - Ho; lia). unfold ml_step_acts. fold ln. f_equal. rewrite Nat.sub_0_r. replace (o - 1) with (S (o - 2)) by lia. rewrite seq_S, flat_map_app. f_equal.
  - rewrite (flat_map_ext_in _ (fun i => [Full (cmode o ln i)])).
    + rewrite (flat_map_single (fun i => Full (cmode o ln i))). rewrite <- (map_map (cmode o ln) Full). f_equal.
      rewrite after_cmode by auto. replace (o - 1) with (S (o - 2)) by lia. rewrite seq_S, map_app. rewrite firstn_app. rewrite map_length, seq_length, Nat.sub_diag.
      rewrite firstn_O, app_nil_r. symmetry. apply firstn_all2. rewrite map_length, seq_length. lia.
    + intros i Hi. apply in_seq in Hi. destruct (Nat.eqb_spec i (o - 2)); [lia|]. rewrite andb_false_r. reflexivity.
  - cbn [flat_map Nat.add]. rewrite app_nil_r, Nat.eqb_refl, andb_true_r. rewrite after_nth by lia. unfold gact. destruct (o <=? j + 1); auto.
Qed.
Theorem ml_step_ok fuel s j : o - 1 <= fuel -> ml_good s j ->
  exists s', ml_step LA fuel k rs V (mscal lambda (mid R)) s = Ok ((Z.of_nat o - 1 # Pos.of_nat o)%Q, s') /\ ml_good s' (S j) /\
    acts (ml_step_acts o j) (absr (mss (mlb s)) (ml_old s) (lseed (ml_low s))) = absr (mss (mlb s')) (ml_old s') (lseed (ml_low s')).
Proof.
  intros Hf Hgood. destruct (ml_init_ok s j Hgood) as (lo1 & Einit & Hseed).
  destruct Hgood as ((Hst & Hg & Htop & Hseq & Hix & Hleft) & L1 & L2 & L3 & His & Hct & Hnext).
  set (ln := o - 1 - j mod o) in *. assert (Hl : ln < o) by (unfold ln; clear - Ho; lia).
  destruct (left_step j) as (S1 & S2 & S3). fold ln in S1, S3. set (ln' := o - 1 - S j mod o) in *.
  assert (Hl' : ln' < o) by (unfold ln'; clear - Ho; lia).
  unfold ml_step. fold o. pose proof (ms_left V Ho j) as HL. cbv zeta in HL. fold o in HL. rewrite Hleft. rewrite HL. fold ln.
  rewrite update_indexes_ok by auto. cbn [bind]. rewrite Einit. cbn [bind]. rewrite after_length by auto. rewrite Htop.
  set (W := oW (mss (mlb s))) in *. set (old := setf (ml_old s) ln (fac W ln)). set (is := lset (ml_is s) ln true).
  assert (HW : factors_ok V W R) by apply Hst.
  assert (HLi : length is = o) by (unfold is; rewrite lset_length; auto).
  assert (Eis : forall n, n < o -> nth n is false = cached_in (S j) n).
  { intros n Hn. unfold is. rewrite lset_nth by lia. rewrite cached_next by auto. fold ln. destruct (Nat.eqb_spec n ln); [reflexivity|]. apply His; auto. }
  assert (Hc : (o <=? j + 1) = nth (cmode o ln (o - 2)) is false).
  { rewrite S1, Eis by auto. rewrite cached_next by auto. fold ln. destruct (Nat.eqb_spec ln' ln); [congruence|]. cbn [orb]. auto. }
  rewrite (for_ml fuel is old _ (mtree (mlb s)) ln (o <=? j + 1) Hl HLi Hc).
  assert (Hlo : length old = o) by (unfold old; rewrite setf_length; auto).
  assert (Eold : forall n, fac old n = if n =? ln then fac W ln else fac (ml_old s) n) by (intros n; unfold old; apply fac_setf; lia).
  destruct (gloop_ok RL LA V R lambda Hsh Hlow Ho rs k HkR HkV (mtree (mlb s)) Hg ln fuel (Some old) (o <=? j + 1) (o - 2) 0 (o - 1) (mss (mlb s)) lo1 (ml_flag s) old)
    as (st' & mp' & lo2 & flag' & rf' & E & Hok & Hacts & Hrf' & Er & Hfl & Hlo2 & Hfix); auto; try (fold o; lia).
  { fold o. split; [auto|]. intros Hcj. rewrite S1. rewrite Eold. destruct (Nat.eqb_spec ln' ln); [congruence|]. apply Hct; auto. congruence. }
  fold o. fold o in E, Hlo2, Hacts, Hfix, Hfl. fold W in E. rewrite E. cbn [bind]. clear E. rewrite S1 in Hlo2. subst rf'.
  eexists. split; [reflexivity|]. split.
  - unfold ml_good. cbn [mlb mss ml_is ml_ct ml_old ml_flag ml_low]. split; [|split; [auto|split; [rewrite setf_length; auto|split; [auto|split; [auto|split]]]]].
    + unfold ms_good. cbn. rewrite after_length by auto. auto 12.
    + intros n Hn Hcn. rewrite cached_next in Hcn by auto. fold ln in Hcn. rewrite Eold, fac_setf by lia. destruct (Nat.eqb_spec n ln) as [->|Hne].
      * split; [apply HW; auto|]. apply partial_at_l; auto. rewrite Eold, Nat.eqb_refl. auto.
      * cbn [orb] in Hcn. destruct (Hct n Hn Hcn) as [C1 C2]. split; auto. rewrite C2. apply partial_at_l; auto. rewrite Eold. destruct (Nat.eqb_spec n ln); congruence.
    + fold ln'. rewrite cached_next by auto. fold ln. destruct (Nat.eqb_spec ln' ln); [congruence|]. cbn [orb]. rewrite S2. intros Hcj. rewrite Hcj in Hlo2. exact Hlo2.
  - cbn [mlb mss ml_old ml_low]. rewrite <- (ml_acts_eq old j). fold ln. change (Snap ln :: ?x) with ([Snap ln] ++ x). rewrite racts_app. rewrite Hseed in Hacts. exact Hacts.
Qed.
Theorem ml_steps_ok fuel st j : o - 1 <= fuel -> ost_ok V R st ->
  exists s0 q s, ml_new o st = Ok s0 /\ steps j (ml_step LA fuel k rs V (mscal lambda (mid R))) s0 = Ok (q, s) /\
    ml_good s j /\ (q == Z.of_nat j * (Z.of_nat o - 1) # Pos.of_nat o)%Q /\
    acts (ml_schedule o j) (absr st (repeat tnil o) 0) = absr (mss (mlb s)) (ml_old s) (lseed (ml_low s)).
Proof.
  intros Hf Hst. destruct (ml_new_ok st Hst) as (s0 & E0 & Hg0 & Es & Eseed & Eold). exists s0.
  assert (H : exists q s, steps j (ml_step LA fuel k rs V (mscal lambda (mid R))) s0 = Ok (q, s) /\
    ml_good s j /\ (q == Z.of_nat j * (Z.of_nat o - 1) # Pos.of_nat o)%Q /\
    acts (ml_schedule o j) (absr st (repeat tnil o) 0) = absr (mss (mlb s)) (ml_old s) (lseed (ml_low s))).
  { induction j as [|j IH].
    - exists 0%Q, s0. split; [reflexivity|]. split; [exact Hg0|]. split; [reflexivity|]. rewrite Es, Eseed, Eold. reflexivity.
    - destruct IH as (q & s & E & Hg & Hq & Hu). destruct (ml_step_ok fuel s j Hf Hg) as (s' & E' & Hg' & Hu').
      exists (q + (Z.of_nat o - 1 # Pos.of_nat o))%Q, s'. cbn [steps]. rewrite E. cbn [bind]. rewrite E'. cbn [bind]. split; [auto|]. split; [exact Hg'|].
      split; [rewrite Hq; unfold Qeq; cbn [Qnum Qden Qplus]; rewrite Nat2Z.inj_succ, Pos2Z.inj_mul; ring|].
      unfold ml_schedule. rewrite flat_map_seq_S. rewrite racts_app. fold (ml_schedule o j). rewrite Hu. exact Hu'. }
  destruct H as (q & s & H). exists q, s. split; auto.
Qed.
End D.

(** ** C23.  [svd], [qr_q], [rnd], [cholesky], [solve_tri] are arbitrary functions returning matrices of the right shapes;
    k is the rank of the update, h the number of calls of step().  The factors and gradients are those of the
    actions of the schedule, each of which uses the exact MTTKRP and system matrix of the factors as they stand. *)
Theorem C23_two_subtree_low_rank_exact :
  forall (N : num), ring_laws N ->
  forall (LA : lapack N) (V : tensor N) (W G : list (tensor N)) (S0 : tensor N) (R : nat) (lambda : N) (regul : tensor N) (randomised : bool) (fuel k h : nat),
  tri_shaped (cholesky LA) (solve_tri LA) -> low_shaped (svd LA) (qr_q LA) (rnd LA) ->
  3 <= order V <= 31 -> order V <= fuel + 1 -> k <= R -> (forall n, n < order V -> k <= nth n (lens V) 0) ->
  factors_ok V W R -> mats_ok V G R -> lens S0 = [R; R] -> mk_regul R lambda = Ok regul ->
  exists s0 q s, dl_new (order V) (mkOpt W G S0) = Ok s0 /\ steps h (dl_step LA fuel k randomised V regul) s0 = Ok (q, s) /\
    (q == Z.of_nat h # 2)%Q /\
    let r := lr_acts (chol_solve (cholesky LA) (solve_tri LA)) (lr_inc (trunc_of (svd LA) (qr_q LA) (rnd LA) randomised) (cholesky LA) (solve_tri LA) k)
               lambda V R (dl_schedule (order V) h) (mkLR W G (repeat tnil (order V)) 0) in
    oW (ds (dlb s)) = rW r /\ oG (ds (dlb s)) = rG r.
Proof.
  intros N RL LA V W G S0 R lambda regul rs fuel k h Hsh Hlow Ho Hf HkR HkV HW HG HS Er. rewrite (mk_regul_ok RL) in Er. injection Er as <-.
  destruct (dl_steps_ok RL LA V R lambda Hsh Hlow Ho rs k HkR HkV fuel (mkOpt W G S0) h (repeat tnil (order V))) as (s0 & q & s & E0 & E & _ & Hq & rf & _ & Hu);
    [lia|split; auto|apply repeat_length|].
  exists s0, q, s. split; [auto|]. split; [auto|]. split; [auto|]. unfold absr in Hu. cbn [oW oG] in Hu. cbv zeta. rewrite Hu. split; reflexivity.
Qed.
(** the contraction cached by the last step is the one of V with the present factor of the mode left out by that step *)
Theorem C23_two_subtree_cache :
  forall (N : num), ring_laws N ->
  forall (LA : lapack N) (V : tensor N) (W G : list (tensor N)) (S0 : tensor N) (R : nat) (lambda : N) (regul : tensor N) (randomised : bool) (fuel k h : nat),
  tri_shaped (cholesky LA) (solve_tri LA) -> low_shaped (svd LA) (qr_q LA) (rnd LA) ->
  3 <= order V <= 31 -> order V <= fuel + 1 -> k <= R -> (forall n, n < order V -> k <= nth n (lens V) 0) ->
  factors_ok V W R -> mats_ok V G R -> lens S0 = [R; R] -> mk_regul R lambda = Ok regul ->
  exists s0 q s, dl_new (order V) (mkOpt W G S0) = Ok s0 /\ steps (S h) (dl_step LA fuel k randomised V regul) s0 = Ok (q, s) /\
    let sp := (h / 10) mod (order V - 1) in
    (if Nat.even h then dl_c1 s = Some (partial_mttkrp V (oW (ds (dlb s))) (after (order V) (order V - 1 - sp)) R)
     else dl_c2 s = Some (partial_mttkrp V (oW (ds (dlb s))) (after (order V) (order V - 2 - sp)) R)).
Proof.
  intros N RL LA V W G S0 R lambda regul rs fuel k h Hsh Hlow Ho Hf HkR HkV HW HG HS Er. rewrite (mk_regul_ok RL) in Er. injection Er as <-.
  destruct (dl_steps_ok RL LA V R lambda Hsh Hlow Ho rs k HkR HkV fuel (mkOpt W G S0) h (repeat tnil (order V))) as (s0 & q & s & E0 & E & Hg & _ & rf & Hrf & _);
    [lia|split; auto|apply repeat_length|].
  destruct (dl_step_ok RL LA V R lambda Hsh Hlow Ho rs k HkR HkV fuel s (h / 2) (Nat.even h) rf) as (s' & rf' & E' & _ & _ & _ & Hc); [lia|auto|auto|].
  exists s0, (q + (1 # 2))%Q, s'. split; [auto|]. split; [cbn [steps]; rewrite E; cbn [bind]; rewrite E'; reflexivity|].
  rewrite Nat.div_div in Hc by lia. change (2 * 5) with 10 in Hc. cbv zeta in Hc |- *. destruct (Nat.even h); exact Hc.
Qed.
Theorem C23_multi_sweep_low_rank_exact :
  forall (N : num), ring_laws N ->
  forall (LA : lapack N) (V : tensor N) (W G : list (tensor N)) (S0 : tensor N) (R : nat) (lambda : N) (regul : tensor N) (randomised : bool) (fuel k j : nat),
  tri_shaped (cholesky LA) (solve_tri LA) -> low_shaped (svd LA) (qr_q LA) (rnd LA) ->
  3 <= order V <= 31 -> order V <= fuel + 1 -> k <= R -> (forall n, n < order V -> k <= nth n (lens V) 0) ->
  factors_ok V W R -> mats_ok V G R -> lens S0 = [R; R] -> mk_regul R lambda = Ok regul ->
  exists s0 q s, ml_new (order V) (mkOpt W G S0) = Ok s0 /\ steps j (ml_step LA fuel k randomised V regul) s0 = Ok (q, s) /\
    (q == Z.of_nat j * (Z.of_nat (order V) - 1) # Pos.of_nat (order V))%Q /\
    let r := lr_acts (chol_solve (cholesky LA) (solve_tri LA)) (lr_inc (trunc_of (svd LA) (qr_q LA) (rnd LA) randomised) (cholesky LA) (solve_tri LA) k)
               lambda V R (ml_schedule (order V) j) (mkLR W G (repeat tnil (order V)) 0) in
    oW (mss (mlb s)) = rW r /\ oG (mss (mlb s)) = rG r /\
    (* every cached contraction is the one of V with the reference factor of its mode; a mode is cached iff it has been left out by one of the j steps *)
    (forall n, n < order V -> nth n (ml_is s) false = (order V - 1 - n <? j)) /\
    (forall n, n < order V -> nth n (ml_is s) false = true -> fac (ml_ct s) n = partial_mttkrp V (rRef r) (after (order V) n) R).
Proof.
  intros N RL LA V W G S0 R lambda regul rs fuel k j Hsh Hlow Ho Hf HkR HkV HW HG HS Er. rewrite (mk_regul_ok RL) in Er. injection Er as <-.
  destruct (ml_steps_ok RL LA V R lambda Hsh Hlow Ho rs k HkR HkV fuel (mkOpt W G S0) j) as (s0 & q & s & E0 & E & Hg & Hq & Hu); [lia|split; auto|].
  exists s0, q, s. split; [auto|]. split; [auto|]. split; [auto|]. unfold absr in Hu. cbn [oW oG] in Hu. cbv zeta. rewrite Hu. cbn [rW rG rRef].
  destruct Hg as (_ & _ & _ & _ & H1 & H2 & _). split; [reflexivity|]. split; [reflexivity|]. split; [exact H1|].
  intros n Hn Hc. apply H2; auto. rewrite <- H1; auto.
Qed.
(** a concrete case: both decompositions, runs long enough to take the low-rank path and reuse the caches *)
Definition lLA : lapack Znum :=
  @mkLapack Znum (fun X k => (tabulate [nrow X; k] (fun x => at_ X x), tabulate [k] (fun _ => 1%Z : Znum), tabulate [k; ncol X] (fun x => (if nth 0 x 0 =? nth 1 x 0 then 1%Z else 0%Z) : Znum)))
   (fun A => A) (fun B _ _ _ _ => tabulate (lens B) (fun x => (at_ B x mod 7)%Z : Znum)) (fun X => X) (fun seed ls => tabulate ls (fun x => Z.of_nat (seed + nth 0 x 0 + 1) : Znum)).
Definition lW0 : list (tensor Znum) := [zt [2; 1] [1; 2]%Z; zt [2; 1] [0; 1]%Z; zt [2; 1] [1; 1]%Z].
Theorem C23_case :
  tri_shaped (cholesky lLA) (solve_tri lLA) /\ low_shaped (svd lLA) (qr_q lLA) (rnd lLA) /\ factors_ok oV lW0 1 /\ mats_ok oV lW0 1 /\
  (exists regul, mk_regul 1 (1%Z : Znum) = Ok regul /\
   match (s0 <- dl_new 3 (mkOpt lW0 lW0 (zeros [1; 1])) ;; steps 5 (dl_step lLA 2 1 false oV regul) s0) with
     | Ok (_, s) => lseed (dl_low s) = 3 /\ low_val 1 (dl_low s) <> zeros [2; 1] | _ => False end /\
   match (s0 <- ml_new 3 (mkOpt lW0 lW0 (zeros [1; 1])) ;; steps 4 (ml_step lLA 2 1 true oV regul) s0) with
     | Ok (_, s) => lseed (ml_low s) = 2 /\ low_val 1 (ml_low s) <> zeros [2; 1] | _ => False end).
Proof.
  split.
  { split; cbn; auto. intros B L r k _ _ _ [E _] _. split; [exact E|apply tabulate_wf]. }
  split.
  { split; [|split].
    - intros X r c k HX H1 H2. cbn. rewrite (is_mat_nrow _ _ _ HX), (is_mat_ncol _ _ _ HX). repeat split; try reflexivity; apply tabulate_wf.
    - intros X r c HX _. exact HX.
    - intros seed r c. split; [reflexivity|apply tabulate_wf]. }
  assert (HF : forall m, m < 3 -> is_mat (fac lW0 m) (nth m (lens oV) 0) 1).
  { intros m Hm. destruct m as [|[|[|m]]]; [split; reflexivity|split; reflexivity|split; reflexivity|lia]. }
  split; [split; [reflexivity|split; [reflexivity|exact HF]]|]. split; [split; [reflexivity|exact HF]|].
  eexists. split; [vm_compute; reflexivity|]. split; vm_compute; repeat split; discriminate.
Qed.
Print Assumptions C23_two_subtree_low_rank_exact.
Print Assumptions C23_two_subtree_cache.
Print Assumptions C23_multi_sweep_low_rank_exact.
Print Assumptions C23_case.
