(** Gram_Schmidt, apply_rankR_update, random_laplacian_tensor, unit_tensor *)
From Coq Require Import List ZArith QArith Lia Bool Arith Permutation Ring.
From Verif Require Import Base Num Tensor Spec Spec3 Spec5 Spec7 Spec17 MCommon MHelpers MGen PBase PTensor PSum PMttkrp PMat PMatAlg PTtm PGen PGen2.
Import ListNotations.
Local Close Scope Q_scope.

Ltac ev := cbv -[nadd nmul nopp nsub n0 n1 bigsum at_ el seq car gram_at].
Section P.
Context {N : num} (RL : ring_laws N).
Let RT : ring_theory (@n0 N) n1 nadd nmul nsub nopp (@eq N) := RL.
Add Ring Nring : RT.
Local Open Scope num_scope.

(** ** Gram_Schmidt *)
Lemma inb1 n i : i < n -> inb [n] [i].
Proof. intros. constructor; [auto|constructor]. Qed.
Lemma gs_ok (A B : tensor N) n : lens A = [n] -> lens B = [n] ->
  Gram_Schmidt A B = Ok (tabulate [n] (fun x => at_ A x + - (dotp A B / dotp B B) * at_ B x)).
Proof.
  intros HA HB. unfold Gram_Schmidt. rewrite (dot1_ok RL B B n), (dot1_ok RL A B n) by auto. cbn [bind].
  unfold assign, order. rewrite HA. cbn [length Nat.eqb forallb andb].
  replace (term_ok A [ch_i] (mkTerm (- (dotp A B / dotp B B)) [(B, [ch_i])])) with true.
  2:{ unfold term_ok, lengths_ok, dims. cbn [facs forallb flat_map snd fst combine app length]. unfold order. rewrite HA, HB. cbn. rewrite !Nat.eqb_refl. reflexivity. }
  cbn [andb]. f_equal. apply tabulate_ext. intros x Hx. destruct x as [|i [|]]; try solve [inversion Hx as [|? ? ? ? Hx1 Hx2]; inversion Hx2].
  unfold addressed. cbn [combine consistent forallb assoc fst snd]. rewrite Z.eqb_refl, Nat.eqb_refl. cbn [andb].
  f_equal. cbn [terms_val fold_left]. unfold term_val. cbn [coef facs contracted]. unfold contracted. cbn [flat_map snd app filter memc existsb negb nodup].
  rewrite Z.eqb_refl. cbn [orb negb nodup sumc bigprod fold_right fst snd map assoc combine]. rewrite Z.eqb_refl. ring.
Qed.
Lemma dotp_gs (A B C : tensor N) c n : lens A = [n] -> lens C = [n] ->
  dotp (tabulate [n] (fun x => at_ A x + c * at_ B x)) C = dotp A C + c * bigsum (seq 0 n) (fun i => at_ B [i] * at_ C [i]).
Proof.
  intros HA HC. unfold dotp. cbn [lens tabulate nth]. rewrite HA. cbn [nth]. rewrite <- (bigsum_mul_l RL), <- (bigsum_add RL).
  apply bigsum_ext. intros i Hi. apply in_seq in Hi. rewrite at_tabulate by (apply inb1; lia). ring.
Qed.

Lemma gs_facts (A B : tensor N) n : lens A = [n] -> lens B = [n] -> forall q, q * dotp B B = dotp A B ->
  let A' := tabulate [n] (fun x => at_ A x + - q * at_ B x) in
  dotp A' B = n0 /\ (forall C, lens C = [n] -> dotp B C = n0 -> dotp A' C = dotp A C) /\
  dotp A A = dotp A' A' + q * q * dotp B B.
Proof.
  intros HA HB q Hq A'.
  assert (G : forall C, lens C = [n] -> dotp A' C = dotp A C + - q * dotp B C).
  { intros C HC. unfold A'. rewrite (dotp_gs A B C _ n HA HC). unfold dotp at 3. rewrite HB. reflexivity. }
  assert (Sy : forall X Y : tensor N, lens X = [n] -> lens Y = [n] -> dotp X Y = dotp Y X).
  { intros X Y HX HY. unfold dotp. rewrite HX, HY. apply bigsum_ext. intros. ring. }
  assert (E0 : dotp A' B = n0) by (rewrite G, <- Hq by auto; ring).
  assert (HA' : lens A' = [n]) by reflexivity.
  split; [auto|]. split; [intros C HC HBC; rewrite G, HBC by auto; ring|].
  rewrite (G A') by auto. rewrite (Sy B A'), E0 by auto. rewrite (Sy A A'), G by auto. rewrite (Sy B A), <- Hq by auto. ring.
Qed.

Lemma sq_dot_nonneg (OL : ord_laws N) q (B : tensor N) : nle n0 (q * q * dotp B B).
Proof.
  unfold dotp. rewrite <- (bigsum_mul_l RL). induction (seq 0 (nth 0 (lens B) 0%nat)) as [|i l IH]; cbn [bigsum fold_right]; [apply (le_refl OL)|].
  apply (le_add OL); [|exact IH]. replace (q * q * (at_ B [i] * at_ B [i])) with ((q * at_ B [i]) * (q * at_ B [i])) by ring. apply (le_sq OL).
Qed.

(** ** random_laplacian_tensor *)
Lemma rand_lap_D_ok s : 1 <= s -> rand_lap_D s = Ok (lapg (skew_diff : nat -> nat -> N) s).
Proof.
  intros Hs. unfold rand_lap_D.
  set (ps := map (fun row => ((row * s + row + 1)%nat, - n1)) (seq 0 (s - 1)) : list (nat * N)).
  assert (Hf : map fst ps = map (fun row => (row * s + row + 1)%nat) (seq 0 (s - 1))) by (unfold ps; rewrite map_map; apply map_ext; auto).
  assert (Hz : length (data (zeros [s; s] : tensor N)) = (s * s)%nat).
  { cbn [zeros tabulate data]. rewrite map_length, all_idx_length. cbn. lia. }
  destruct (write_spec ps (zeros [s; s])) as (D & E & H1 & H2 & H3 & H4).
  - rewrite Hf. apply NoDup_map_inj; [|apply seq_NoDup]. intros x y Hx Hy. nia.
  - intros g Hg. rewrite Hf in Hg. apply in_map_iff in Hg as (r & <- & Hr). apply in_seq in Hr. rewrite Hz. nia.
  - rewrite E. cbn [bind].
    assert (Del : forall i j, i < s -> j < s -> el D i j = if Nat.eqb i (j + 1) then - n1 else n0).
    { intros i j Hi Hj. unfold el, at_. rewrite H1. cbn [lens zeros tabulate lin]. replace (i + s * (j + s * 0))%nat with (i + s * j)%nat by lia.
      destruct (Nat.eqb_spec i (j + 1)).
      - apply H3. unfold ps. apply in_map_iff. exists j. split; [|apply in_seq; lia]. f_equal. nia.
      - rewrite H4.
        + transitivity (at_ (zeros [s; s] : tensor N) [i; j]).
          * unfold at_. cbn [zeros tabulate lens lin]. f_equal. lia.
          * unfold zeros. rewrite at_tabulate by (apply inb2; auto). auto.
        + rewrite Hf. intros Hin. apply in_map_iff in Hin as (r & Er & Hr). apply in_seq in Hr.
          assert (r = j) by nia. subst. nia. }
    assert (HD : lens D = [s; s]) by (rewrite H1; reflexivity).
    replace (assign true D sij [mkTerm (n1 + n1) [(D, sji)]]) with (Ok (mk s s (fun i j => el D i j + (n1 + n1) * el D j i))).
    2:{ symmetry. apply (assign_mat (fun _ => s) true D ch_i ch_j [mkTerm (n1 + n1) [(D, sji)]]).
        - discriminate.
        - auto.
        - intros t [<-|[]] p [<-|[]]. cbn. rewrite HD. auto.
        - intros i j Hi Hj. ev. unfold el. ring. }
    cbn [bind]. unfold assign. cbn [length Nat.eqb order lens mk tabulate forallb].
    replace (term_ok (mk s s (fun i j => el D i j + (n1 + n1) * el D j i)) [ch_i; ch_i] (mkTerm (n1 + n1) [])) with true.
    2:{ unfold term_ok. cbn. rewrite !Nat.eqb_refl. reflexivity. }
    cbn [andb]. f_equal. unfold lapg. apply tabulate_ext. intros idx Hi. apply inb2_inv in Hi as (i & j & -> & Hi & Hj).
    change (at_ (mk s s (fun i j => el D i j + (n1 + n1) * el D j i)) [i; j]) with (el (mk s s (fun i j => el D i j + (n1 + n1) * el D j i)) i j).
    rewrite el_mk by auto. rewrite !Del by auto.
    unfold addressed. cbn [combine consistent forallb assoc fst snd Z.eqb nth].
    change (ch_i =? ch_i)%Z with true. cbn iota. rewrite Nat.eqb_refl. cbn [andb]. rewrite andb_true_r.
    unfold skew_diff. destruct (Nat.eqb_spec i j).
    + cbn [terms_val fold_left]. unfold term_val. cbn. ring.
    + destruct (Nat.eqb_spec i (j + 1)), (Nat.eqb_spec j (i + 1)); try ring. lia.
Qed.
Lemma random_laplacian_ok (V : tensor N) d s : 2 <= d -> 2 * d <= 31 -> 1 <= s -> wf V -> lens V = repeat s (2 * d) ->
  random_laplacian_tensor V (2 * d) s = Ok (tabulate (repeat s (2 * d)) (fun x => at_ V x + grid_sum skew_diff d x)).
Proof.
  intros Hd Hn Hs HV HL. unfold random_laplacian_tensor. destruct (Nat.ltb_spec (2 * d) 2); [lia|]. rewrite rand_lap_D_ok by auto. cbn [bind].
  apply (lap_sum_ok RL); auto.
Qed.

(** ** unit_tensor *)
Lemma unit_ok (V : tensor N) s : lens V = [s; s; s] -> wf V ->
  exists V', unit_tensor V s = Ok V' /\ lens V' = [s; s; s] /\ wf V' /\
    forall i j k, i < s -> j < s -> k < s -> at_ V' [i; j; k] = if Nat.eqb ((i + k) mod s) j then n1 else at_ V [i; j; k].
Proof.
  intros HL HV. unfold unit_tensor.
  set (ps := flat_map _ (seq 0 s)).
  assert (Hin : forall g v, In (g, v) ps <-> exists column row, column < s /\ row < s /\ g = (column * s * s + row * s + (row + column * (s - 1)) mod s)%nat /\ v = n1).
  { intros g v. unfold ps. rewrite in_flat_map. split.
    - intros (column & Hc & H). apply in_map_iff in H as (row & E & Hr). apply in_seq in Hc, Hr. injection E as <- <-. exists column, row. repeat split; lia.
    - intros (column & row & Hc & Hr & -> & ->). exists column. split; [apply in_seq; lia|]. apply in_map_iff. exists row. split; [auto|apply in_seq; lia]. }
  assert (Hmod : forall a, 0 < s -> a mod s < s) by (intros; apply Nat.mod_upper_bound; lia).
  assert (Hu : forall c r m c' r' m', r < s -> m < s -> r' < s -> m' < s -> (c * s * s + r * s + m = c' * s * s + r' * s + m')%nat -> c = c' /\ r = r' /\ m = m').
  { clear. intros c r m c' r' m' Hr Hm Hr' Hm' E.
    destruct (Nat.div_mod_unique s (r + s * c) (r' + s * c') m m') as (E3 & ->); [auto|auto|lia|].
    destruct (Nat.div_mod_unique s c c' r r') as (-> & ->); [auto|auto|lia|auto]. }
  assert (Hfst : forall g, In g (map fst ps) -> exists v, In (g, v) ps).
  { intros g H. apply in_map_iff in H as ((g' & v) & <- & H). eauto. }
  destruct (write_spec ps V) as (V' & E & H1 & H2 & H3 & H4).
  - unfold ps. clear -Hu Hmod.
    assert (G : forall l, NoDup l -> (forall c, In c l -> True) -> NoDup (map fst (flat_map (fun column => map (fun row => ((column * s * s + row * s + (row + column * (s - 1)) mod s)%nat, n1 : N)) (seq 0 s)) l))).
    { induction l as [|c l IH]; intros Hn _; [constructor|]. inversion Hn as [|? ? Hc Hn']; subst. cbn [flat_map]. rewrite map_app. apply NoDup_app_intro.
      - rewrite map_map. cbn [fst]. apply NoDup_map_inj; [|apply seq_NoDup]. intros x y Hx Hy Exy. apply in_seq in Hx, Hy.
        apply Hu in Exy; try lia; apply Hmod; lia.
      - apply IH; auto.
      - intros g Hg Hg'. apply in_map_iff in Hg as ((g1 & v1) & E1 & Hg). cbn in E1. subst g1. apply in_map_iff in Hg as (r & Er & Hr). apply in_seq in Hr. injection Er as Er _.
        apply in_map_iff in Hg' as ((g2 & v2) & E2 & Hg'). cbn in E2. subst g2. apply in_flat_map in Hg' as (c' & Hc' & Hg'). apply in_map_iff in Hg' as (r' & Er' & Hr'). apply in_seq in Hr'. injection Er' as Er' _.
        rewrite <- Er in Er'. apply Hu in Er'; try (apply Hmod; lia); try lia. destruct Er' as (-> & _). auto. }
    apply G; [apply seq_NoDup|auto].
  - intros g Hg. apply Hfst in Hg as (v & Hg). apply Hin in Hg as (c & r & Hc & Hr & -> & _). rewrite HV, HL. cbn [size fold_right].
    specialize (Hmod (r + c * (s - 1))%nat ltac:(lia)). nia.
  - exists V'. split; [auto|]. split; [congruence|]. split; [unfold wf in *; rewrite H1; lia|].
    intros i j k Hi Hj Hk. unfold at_. rewrite H1, HL. cbn [lin]. replace (i + s * (j + s * (k + s * 0)))%nat with (k * s * s + j * s + i)%nat by lia.
    (* (j + k (s-1)) mod s = i  <->  (i + k) mod s = j *)
    assert (Hq : (j + k * (s - 1)) mod s = i <-> (i + k) mod s = j).
    { split.
      - intros <-. rewrite Nat.add_mod_idemp_l by lia. replace (j + k * (s - 1) + k)%nat with (j + k * s)%nat by nia. rewrite Nat.mod_add by lia. apply Nat.mod_small; auto.
      - intros <-. rewrite Nat.add_mod_idemp_l by lia. replace (i + k + k * (s - 1))%nat with (i + k * s)%nat by nia. rewrite Nat.mod_add by lia. apply Nat.mod_small; auto. }
    destruct (Nat.eqb_spec ((i + k) mod s) j) as [Eq|Ne].
    + apply H3. apply Hin. exists k, j. split; [auto|]. split; [auto|]. split; [|auto]. rewrite (proj2 Hq Eq). lia.
    + apply H4. intros Hg. apply Hfst in Hg as (v & Hg). apply Hin in Hg as (c & r & Hc & Hr & Eg & _). apply Hu in Eg; auto; [|apply Hmod; lia].
      destruct Eg as (-> & -> & Ei). apply Ne, Hq. auto.
Qed.

(** ** apply_rankR_update *)
Lemma rankR_ok (U sigma VT A V cached : tensor N) (mode r k c : nat) :
  order V <= 29 -> mode < order V -> wf V -> nth mode (lens V) 0%nat = r ->
  is_mat U r k -> lens sigma = [k] -> wf sigma -> is_mat VT k c -> is_mat A r c ->
  wf cached -> lens cached = lset (lens V) mode c ->
  apply_rankR_update U sigma VT A V cached mode =
  Ok (mmul U (mdiag k (fun i => at_ sigma [i])), tadd cached (ttm V (usv k U sigma VT) mode), usv k U sigma VT).
Proof.
  intros Ho Hm HV Hr HU Ls Ws HVT HA Wc Lc. unfold apply_rankR_update. cbv zeta. set (o := order V) in *.
  rewrite (bset_ok (newbuf (o + 1))) by (rewrite newbuf_length; lia). cbn [bind].
  set (b0 := lset (newbuf (o + 1)) o (Some 0%Z)).
  assert (Lb0 : length b0 = (o + 1)%nat) by (unfold b0; rewrite lset_length, newbuf_length; auto).
  destruct (for_inv (fun i (st : buf Z * buf Z) => fst st = snd st /\ length (fst st) = (o + 1)%nat /\ forall j, j < i -> nth_error (fst st) j = Some (Some (chr j)))
    (fun i st => let '(a, b) := st in a <- bset a i (chr i) ;; b <- bset b i (chr i) ;; Ok (a, b)) 0 o (b0, b0)) as ((s1 & s2) & E & (Es & L1 & P1)).
  - lia.
  - cbn [fst snd]. split; [auto|]. split; [auto|]. intros; lia.
  - intros i (a & b) Hi (Eab & La & Pa). cbn [fst snd] in *. subst b. rewrite bset_ok by lia. cbn [bind]. eexists. split; [reflexivity|]. cbn [fst snd].
    split; [auto|]. split; [rewrite lset_length; auto|]. intros j Hj. rewrite lset_nth_error.
    destruct (Nat.eqb_spec j i) as [->|]; [destruct (Nat.ltb_spec i (length a)); [auto|lia]|]. apply Pa. lia.
  - rewrite E. cbn [bind fst snd] in *. subst s2. rewrite bset_ok by lia. cbn [bind].
    set (s2 := lset s1 mode (Some (chr o))). unfold bget at 1. unfold s2 at 1. rewrite lset_nth_error, Nat.eqb_refl. destruct (Nat.ltb_spec mode (length s1)); [|lia]. cbn [bind].
    unfold bget at 1. rewrite P1 by auto. cbn [bind].
    assert (EU : assign false U sij [prodt [(U, sij); (sigma, [ch_j])]] = Ok (mmul U (mdiag k (fun i => at_ sigma [i])))).
    { rewrite (mmul_diag_r RL U r k) by auto. destruct HU as (LU & _).
      apply (assign_mat (fun x => if Z.eqb x ch_i then r else k) false U ch_i ch_j [prodt [(U, sij); (sigma, [ch_j])]]).
      - discriminate.
      - auto.
      - intros t [<-|[]] p [<-|[<-|[]]]; cbn; auto.
      - intros i j Hi Hj. ev. unfold el. ring. }
    rewrite EU. cbn [bind]. set (U' := mmul U (mdiag k (fun i => at_ sigma [i]))).
    assert (HU' : is_mat U' r k) by (apply (mmul_mat _ _ r k k); auto; apply mdiag_mat).
    assert (EA : assign false A sij [prodt [(U', sik); (VT, skj)]] = Ok (usv k U sigma VT)).
    { unfold usv. fold U'. rewrite (mmul_mk _ _ r k c) by auto. destruct HU' as (LU & _), HVT as (LV & _), HA as (LA & _).
      apply (assign_mat (fun x => if Z.eqb x ch_i then r else if Z.eqb x ch_j then c else k) false A ch_i ch_j [prodt [(U', sik); (VT, skj)]]).
      - discriminate.
      - auto.
      - intros t [<-|[]] p [<-|[<-|[]]]; cbn; auto.
      - intros i j Hi Hj. ev. ring_simplify. apply bigsum_ext. intros x Hx. unfold el. ring. }
    set (s := ab 0 o).
    assert (T1 : take o s1 = Ok s) by (apply take_spec; auto).
    assert (Oc : order cached = o) by (unfold order; rewrite Lc, lset_length; auto).
    assert (Ls' : length s = o) by apply ab_len.
    assert (T2 : take (order cached) s2 = Ok (lset s mode (chr o))).
    { rewrite Oc. apply take_list with (d:=0%Z); [rewrite lset_length; auto|]. intros i Hi. unfold s2. rewrite lset_nth_error.
      destruct (Nat.eqb_spec i mode) as [->|Hn]; [rewrite lset_same by lia; destruct (Nat.ltb_spec mode (length s1)); [auto|lia]|]. rewrite lset_other by auto. rewrite P1 by auto.
      unfold s, ab. rewrite nth_map_lt with (d:=0%nat) by (rewrite seq_length; auto). rewrite nth_seq by auto. auto. }
    rewrite T1, T2. cbn [bind].
    assert (Hns : NoDup s) by (apply ab_nodup; lia).
    assert (Hnm : nth mode s 0%Z = chr mode).
    { unfold s, ab. rewrite nth_map_lt with (d:=0%nat) by (rewrite seq_length; auto). rewrite nth_seq by auto. auto. }
    assert (Hco : ~ In (chr o) s).
    { unfold s. rewrite ab_in. intros (i & Hi & Ei). apply chr_inj in Ei; lia. }
    assert (Hco1 : ~ In (chr (o + 1)) s).
    { unfold s. rewrite ab_in. intros (i & Hi & Ei). apply chr_inj in Ei; lia. }
    assert (Hcc : chr o <> chr (o + 1)) by (intros Ei; apply chr_inj in Ei; lia).
    set (d := PTtm.dl s (lens V) [(chr o, c); (chr (o + 1), k)]).
    assert (Hds : map d s = lens V).
    { apply PTtm.dl_base; auto. intros x Hx [Ei|[Ei|[]]]; cbn in Ei; subst; auto. }
    assert (Hdo : d (chr o) = c). { unfold d, PTtm.dl. cbn [app assoc]. rewrite Z.eqb_refl. auto. }
    assert (Hdk : d (chr (o + 1)) = k).
    { unfold d, PTtm.dl. cbn [app assoc]. rewrite Z.eqb_refl. destruct (Z.eqb_spec (chr (o + 1)) (chr o)); [congruence|auto]. }
    assert (Hdm : d (chr mode) = r).
    { rewrite <- Hnm, <- Hr, <- Hds. rewrite nth_map_lt with (d:=0%Z) by lia. auto. }
    set (sC := lset s mode (chr o)) in *.
    assert (HnC : NoDup sC) by (apply NoDup_lset; auto).
    assert (HC : lens cached = map d sC) by (unfold sC; rewrite map_lset, Hds, Hdo; auto).
    set (f1 := [(cached, sC, fun e => at_ cached (map e sC))] : list (tensor N * str * (env -> N))).
    set (f2 := [(VT, [chr (o + 1); chr o], fun e => at_ VT (map e [chr (o + 1); chr o])); (U', [chr mode; chr (o + 1)], fun e => at_ U' (map e [chr mode; chr (o + 1)])); (V, s, fun e => at_ V (map e s))] : list (tensor N * str * (env -> N))).
    assert (F1 : fgrep d f1) by (repeat constructor; auto).
    assert (F2 : fgrep d f2).
    { destruct HVT as (LV & WV), HU' as (LU & WU). unfold f2. constructor; [|constructor; [|constructor; [|constructor]]]; apply rep_self; auto; cbn [map]; rewrite ?Hdk, ?Hdo, ?Hdm; auto. }
    destruct (assign_rep d false cached sC [prodt (map fst f1); prodt (map fst f2)] HnC HC) as (B & EB & (WB & LB & AB)).
    { intros t [<-|[<-|[]]]; cbn [facs prodt]; apply fgrep_fit; auto. }
    change (mkTerm n1 [(cached, sC)]) with (prodt (map fst f1)).
    change (prodt [(VT, [chr (o + 1); chr o]); (U', [chr mode; chr (o + 1)]); (V, s)]) with (prodt (map fst f2)).
    rewrite EB. cbn [bind]. rewrite EA. cbn [bind]. f_equal. f_equal. f_equal.
    apply tensor_ext; auto; [apply tabulate_wf|rewrite LB, <- HC; auto|].
    intros idx Hi. rewrite LB in Hi. destruct (inb_env d sC idx HnC Hi) as (e & Ee & He).
    rewrite <- Ee at 1. rewrite AB by auto. rewrite <- HC in Hi. unfold tadd. rewrite at_tabulate by auto.
    cbn [tsval fold_left]. unfold prodt.
    rewrite (tval_rep RL d sC f1 [] n1 e); auto.
    2:{ constructor. }
    2:{ intros x. cbn. rewrite app_nil_r. tauto. }
    2:{ intros q [<-|[]]; cbn [snd]; apply at_env. }
    rewrite (tval_rep RL d sC f2 [chr mode; chr (o + 1)] n1 e); auto.
    + cbn [sumc]. rewrite Hdm, Hdk. unfold f1. cbn [bigprod fold_right snd]. rewrite Ee.
      assert (Nc : ncol (usv k U sigma VT) = c) by (unfold usv, mmul, ncol; destruct HVT as (LV & _); cbn; unfold ncol; rewrite LV; auto).
      rewrite ttm_at by (rewrite Nc, <- Lc; auto). rewrite Hr.
      assert (Ey : nth mode idx 0%nat = e (chr o)).
      { rewrite <- Ee. unfold sC. rewrite nth_map_lt with (d:=0%Z) by (rewrite lset_length; lia). rewrite lset_same by lia. auto. }
      assert (Heo : e (chr o) < c).
      { rewrite <- Hdo. apply He. unfold sC. rewrite in_lset by (auto; lia). auto. }
      assert (Eb : forall x, x < r -> bigsum (seq 0 k) (fun i => bigprod f2 (fun q => snd q (upd (upd e (chr mode) x) (chr (o + 1)) i))) =
                 at_ V (lset idx mode x) * el (usv k U sigma VT) x (nth mode idx 0%nat)).
      { intros x Hx. unfold usv. fold U'. rewrite (mmul_mk U' VT r k c) by auto. rewrite Ey, el_mk by auto. rewrite <- (bigsum_mul_l RL). apply bigsum_ext. intros i Hi'.
        unfold f2. cbn [bigprod fold_right snd map].
        assert (Em : map (upd (upd e (chr mode) x) (chr (o + 1)) i) s = lset idx mode x).
        { rewrite <- Ee. unfold sC. rewrite <- Hnm. rewrite <- (map_upd_lset e s mode (chr o) x) by (auto; lia).
          apply map_ext_in. intros y Hy. apply upd_other. intros ->. auto. }
        rewrite Em. set (e2 := upd (upd e (chr mode) x) (chr (o + 1)) i).
        assert (Q1 : e2 (chr (o + 1)) = i) by apply upd_same.
        assert (Q2 : e2 (chr o) = e (chr o)).
        { unfold e2. rewrite upd_other by auto. apply upd_other. intros Ei. apply chr_inj in Ei; lia. }
        assert (Q3 : e2 (chr mode) = x).
        { unfold e2. rewrite upd_other by (intros Ei; apply chr_inj in Ei; lia). apply upd_same. }
        rewrite Q1, Q2, Q3. unfold el. ring. }
      rewrite (bigsum_ext (seq 0 r) _ (fun x => at_ V (lset idx mode x) * el (usv k U sigma VT) x (nth mode idx 0%nat))) by (intros x Hx; apply in_seq in Hx; apply Eb; lia).
      ring.
    + constructor; [|repeat constructor; auto]. intros [Ei|[]]. apply chr_inj in Ei; lia.
    + intros x. unfold f2. cbn [map fst snd flat_map app In]. rewrite app_nil_r. unfold sC. rewrite in_lset by (auto; lia). rewrite Hnm.
      assert (Hin : In (chr mode) s) by (rewrite <- Hnm; apply nth_In; lia).
      assert (Hkm : chr (o + 1) <> chr mode) by (intros Ei; rewrite Ei in Hco1; auto).
      assert (Hom : chr o <> chr mode) by (intros Ei; rewrite Ei in Hco; auto).
      split.
      * intros [<-|[<-|[]]]; (split; [tauto|]); intros [Ei|(Hi1 & Hi2)]; auto.
      * intros ([<-|[<-|[<-|[<-|Hs]]]] & Hn); try tauto.
        destruct (Z.eq_dec x (chr mode)); [left; auto|]. exfalso. apply Hn. auto.
    + intros q [<-|[<-|[<-|[]]]]; cbn [snd]; apply at_env.
Qed.
End P.
