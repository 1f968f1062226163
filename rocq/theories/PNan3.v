(** Solve, normalisation, sweep and driver with absorbing values *)
From Coq Require Import List ZArith Lia Bool Arith.
From Verif Require Import Base Num Tensor Spec MCommon MCP PBase PTensor PNan PNan2.
Import ListNotations.

Section A.
Context {N : num} (LA : lapack N).
Local Open Scope num_scope.
Context (B Zn : N -> Prop) (HL : lossy B Zn).
Let HB := ls_B _ _ HL.
Let HZ := ls_Z _ _ HL.

Lemma dim_of C sC c fs x n (p : tensor N * str) : term_ok C sC (mkTerm c fs) = true -> In p fs -> In (x, n) (combine (snd p) (lens (fst p))) -> assoc x (dims fs) = n.
Proof.
  intros Hok Hp Hx. unfold term_ok in Hok. cbn [facs] in Hok. apply andb_true_iff in Hok as [Hl Hc].
  assert (Hin : In (x, n) (dims fs)) by (unfold dims; apply in_flat_map; exists p; auto).
  assert (Hf : In x (flat_map snd fs)) by (apply in_flat_map; exists p; split; auto; apply in_combine_l in Hx; auto).
  pose proof (assoc_in_dims fs x Hl Hf) as K.
  assert (K1 : In (x, n) (dims ((C, sC) :: fs))) by (change (dims ((C, sC) :: fs)) with (combine sC (lens C) ++ dims fs); apply in_or_app; auto).
  assert (K2 : In (x, assoc x (dims fs)) (dims ((C, sC) :: fs))) by (change (dims ((C, sC) :: fs)) with (combine sC (lens C) ++ dims fs); apply in_or_app; auto).
  pose proof (consistent_in _ _ _ Hc K1). pose proof (consistent_in _ _ _ Hc K2). congruence.
Qed.
Lemma lens2 (T : tensor N) : order T = 2 -> exists a b, lens T = [a; b].
Proof. unfold order. destruct (lens T) as [|a [|b [|]]]; try discriminate. eauto. Qed.

(** ** SVD_solve *)
Lemma contr_ij_k (A D : tensor N) : contracted sij [(A, sik); (D, skj)] = [ch_k].
Proof. reflexivity. Qed.
Lemma mul_lost M X (W W' : tensor N) : assign false W sij [prodt [(M, sik); (X, skj)]] = Ok W' -> okm M /\ allT B M \/ okm X /\ allT B X -> allT B W'.
Proof.
  intros E H. pose proof E as E'. apply assign_ok in E' as (_ & _ & _ & Hok & _). specialize (Hok _ (or_introl eq_refl)).
  destruct H as [[HM HMB]|[HX HXB]].
  - apply (assign_abs B W sij _ W' n1 [(M, sik); (X, skj)] (M, sik) HB E two_ij); [left; reflexivity|left; reflexivity|apply HM|auto|].
    intros x Hx. rewrite contr_ij_k in Hx. destruct Hx as [<-|[]]. destruct HM as (_ & Ho & Hp). destruct (lens2 M Ho) as (a & b & El).
    rewrite (dim_of W sij n1 _ ch_k b (M, sik) Hok); [|left; auto|cbn; rewrite El; cbn; auto]. apply Hp. rewrite El. cbn. auto.
  - apply (assign_abs B W sij _ W' n1 [(M, sik); (X, skj)] (X, skj) HB E two_ij); [left; reflexivity|right; left; reflexivity|apply HX|auto|].
    intros x Hx. rewrite contr_ij_k in Hx. destruct Hx as [<-|[]]. destruct HX as (_ & Ho & Hp). destruct (lens2 X Ho) as (a & b & El).
    rewrite (dim_of W sij n1 _ ch_k a (X, skj) Hok); [|right; left; auto|cbn; rewrite El; cbn; auto]. apply Hp. rewrite El. cbn. auto.
Qed.
Lemma solve_lens M W S (W' : tensor N) : SVD_solve LA M W S = Ok W' -> okm W -> okm W'.
Proof. unfold SVD_solve. destruct (svd LA S (ncol S)) as [[U s] VT]. intros E H. apply bind_ok in E as (R & _ & E). apply (M_lens _ _ _ _ _ E H). Qed.
Lemma solve_lost M W S (W' : tensor N) : SVD_solve LA M W S = Ok W' -> okm M -> allT B M -> allT B W'.
Proof. unfold SVD_solve. destruct (svd LA S (ncol S)) as [[U s] VT]. intros E H1 H2. apply bind_ok in E as (R & _ & E). apply (mul_lost _ _ _ _ E). auto. Qed.
Lemma solve_Z M W S (W' : tensor N) : SVD_solve LA M W S = Ok W' -> allT Zn M -> allT Zn W'.
Proof.
  unfold SVD_solve. destruct (svd LA S (ncol S)) as [[U s] VT]. intros E H1. apply bind_ok in E as (R & _ & E).
  apply (assign_ideal Zn false W sij n1 _ W' (M, sik) HZ E); [left; auto|auto|]. right. split; auto. apply two_ij.
Qed.
Lemma solve_sing M W S (W' : tensor N) U s VT j : SVD_solve LA M W S = Ok W' -> okm S -> svd LA S (ncol S) = (U, s, VT) ->
  lens s = [ncol S] -> wf s -> (j < ncol S)%nat -> Zn (at_ s [j]) -> allT B W'.
Proof.
  unfold SVD_solve. intros E HS Es Hls Hws Hj Hz. rewrite Es in E. apply bind_ok in E as (R & ER & E). apply (mul_lost _ _ _ _ E). right.
  assert (HR : okm R) by (apply (M_lens _ _ _ _ _ ER HS)). split; auto. clear E.
  intros x Hx. pose proof ER as E'. apply assign_ok in E' as (_ & _ & Hlen & Hok & HD). specialize (Hok _ (or_introl eq_refl)).
  destruct (HD x Hx) as (idx & Hi & ->). rewrite (two_addressed sij S idx two_ij Hlen Hi). cbv zeta. cbn [terms_val fold_left].
  set (fs := [(VT, ski); (inv_all s, [ch_k]); (U, sjk)]) in *.
  assert (Hd : assoc ch_k (dims fs) = ncol S).
  { apply (dim_of S sij n1 fs ch_k (ncol S) (inv_all s, [ch_k]) Hok); [right; left; auto|]. cbn. rewrite Hls. cbn. auto. }
  assert (Hc : contracted sij fs = [ch_k]) by reflexivity.
  apply (term_abs_at B sij n1 fs (inv_all s, [ch_k]) _ (fun _ => j) HB); [right; left; auto| |].
  - rewrite Hc. intros y [<-|[]]. rewrite Hd. auto.
  - rewrite Hc. cbn [snd map]. destruct (in_dec Z.eq_dec ch_k [ch_k]) as [_|Hn]; [|exfalso; apply Hn; left; auto]. cbn [fst].
    unfold at_ in *. cbn [inv_all lens data]. rewrite Hls in *. cbn [lin] in *.
    assert (Hlt : (j + ncol S * 0 < length (data s))%nat) by (unfold wf in Hws; rewrite Hws, Hls; cbn; lia).
    rewrite (nth_map_lt (fun x => n1 / x) (data s) _ n0 n0 Hlt). apply (ls_inv _ _ HL). auto.
Qed.

(** ** Normalize *)
Lemma norm_B (W : list (tensor N)) n (norm : N) : for_ 0 n (fun i norm => Wi <- lget W i ;; Ok (norm * norm2 Wi)) n1 = Ok norm ->
  forall i T x, (i < n)%nat -> nth_error W i = Some T -> In x (data T) -> B x -> B norm.
Proof.
  intros E i T x Hi HT Hx Hb. refine (for_part (fun j (v : N) => (i < j)%nat -> B v) _ 0 n _ _ (Nat.le_0_l n) E _ _ Hi); [lia|].
  intros j v v' _ Hv E2 Hij. apply bind_ok in E2 as (Wj & Ej & E2). injection E2 as <-. destruct (Nat.eq_dec i j) as [->|Hne]; [|apply HB; apply Hv; lia].
  apply ab_mul_r; auto. apply lget_nth in Ej. assert (Wj = T) by congruence. subst Wj. apply (norm2_B B Zn HL T x); auto.
Qed.
Lemma norm_Z (W : list (tensor N)) n (norm : N) : for_ 0 n (fun i norm => Wi <- lget W i ;; Ok (norm * norm2 Wi)) n1 = Ok norm ->
  forall i T, (i < n)%nat -> nth_error W i = Some T -> allT Zn T -> Zn norm.
Proof.
  intros E i T Hi HT Hx. refine (for_part (fun j (v : N) => (i < j)%nat -> Zn v) _ 0 n _ _ (Nat.le_0_l n) E _ _ Hi); [lia|].
  intros j v v' _ Hv E2 Hij. apply bind_ok in E2 as (Wj & Ej & E2). injection E2 as <-. destruct (Nat.eq_dec i j) as [->|Hne]; [|apply HZ; apply Hv; lia].
  apply id_mul_r; auto. apply lget_nth in Ej. assert (Wj = T) by congruence. subst Wj. apply (norm2_Z B Zn HL T); auto.
Qed.
Lemma Normalize_each (W : list (tensor N)) n (W' : list (tensor N)) : Normalize W n = Ok W' -> exists norm, for_ 0 n (fun i norm => Wi <- lget W i ;; Ok (norm * norm2 Wi)) n1 = Ok norm /\ length W' = length W /\
  (forall i, (n <= i)%nat -> nth_error W' i = nth_error W i) /\
  (forall i, (i < n)%nat -> exists T T' : tensor N, nth_error W i = Some T /\ nth_error W' i = Some T' /\ assign false T sij [mkTerm (nroot n norm / norm2 T) [(T, sij)]] = Ok T').
Proof.
  unfold Normalize. intros E. apply bind_ok in E as (norm & En & E). exists norm. split; auto. set (r := nroot n norm) in *. clearbody r.
  assert (K : length W' = length W /\ (forall i, (n <= i)%nat -> nth_error W' i = nth_error W i) /\
    forall i, (i < n)%nat -> exists T T' : tensor N, nth_error W i = Some T /\ nth_error W' i = Some T' /\ assign false T sij [mkTerm (r / norm2 T) [(T, sij)]] = Ok T'); [|exact K].
  refine (for_part (fun j X => length X = length W /\ (forall i, (j <= i)%nat -> nth_error X i = nth_error W i) /\
    forall i, (i < j)%nat -> exists T T' : tensor N, nth_error W i = Some T /\ nth_error X i = Some T' /\ assign false T sij [mkTerm (r / norm2 T) [(T, sij)]] = Ok T') _ 0 n _ _ (Nat.le_0_l n) E _ _).
  { repeat split; auto. intros i Hi. lia. }
  intros j X X' _ (H1 & H2 & H3) E2. apply bind_ok in E2 as (Wi & Ei & E2). apply bind_ok in E2 as (Wi' & Ea & E2). apply lput_inv in E2 as (Hj & ->).
  split; [rewrite lset_length; auto|]. split.
  - intros i Hi. rewrite lset_nth_error. destruct (Nat.eqb_spec i j); [lia|]. cbn. apply H2. lia.
  - intros i Hi. rewrite lset_nth_error. destruct (Nat.eqb_spec i j) as [->|Hne].
    + destruct (Nat.ltb_spec j (length X)); [|lia]. cbn. exists Wi, Wi'. split; [|auto]. rewrite <- (H2 j) by lia. apply lget_nth. auto.
    + cbn. apply H3. lia.
Qed.
Lemma Normalize_oks (W : list (tensor N)) n W' : Normalize W n = Ok W' -> oks W -> oks W'.
Proof.
  intros E H T HT. apply Normalize_each in E as (r & _ & _ & H1 & H2). apply In_nth_error in HT as (i & Hi). destruct (Nat.lt_ge_cases i n) as [Hlt|Hge].
  - destruct (H2 i Hlt) as (A & A' & E1 & E2 & E3). assert (T = A') by congruence. subst A'. apply (M_lens _ _ _ _ _ E3). apply H. apply nth_error_In with i. auto.
  - apply H. apply nth_error_In with i. rewrite <- H1; auto.
Qed.
Lemma Normalize_lost (W : list (tensor N)) n W' : (1 <= n)%nat -> Normalize W n = Ok W' -> (exists i T x, (i < n)%nat /\ nth_error W i = Some T /\ In x (data T) /\ B x) ->
  forall i T, (i < n)%nat -> nth_error W' i = Some T -> allT B T.
Proof.
  intros Hn E (k & T0 & x & Hk & HT0 & Hx & Hb) i T Hi HT. apply Normalize_each in E as (norm & En & _ & _ & H2). destruct (H2 i Hi) as (A & A' & E1 & E2 & E3). assert (T = A') by congruence. subst A'.
  apply (assign_coef B _ _ _ _ _ HB E3 two_ij). apply (ls_div _ _ HL). apply (ls_root _ _ HL); auto. apply (norm_B W n norm En k T0 x); auto.
Qed.
Lemma Normalize_zero (W : list (tensor N)) n W' : (1 <= n)%nat -> Normalize W n = Ok W' -> forall k Tk, (k < n)%nat -> nth_error W k = Some Tk -> allT Zn Tk ->
  forall i Ti T, (i < n)%nat -> nth_error W i = Some Ti -> nth_error W' i = Some T -> allT Zn T /\ (allT Zn Ti -> allT B T).
Proof.
  intros Hn E k Tk Hk HTk HZk i Ti T Hi HTi HT. apply Normalize_each in E as (norm & En & _ & _ & H2). destruct (H2 i Hi) as (A & A' & E1 & E2 & E3). assert (T = A') by congruence. subst A'. assert (A = Ti) by congruence. subst A.
  assert (Hr : Zn (nroot n norm)) by (apply (ls_zroot _ _ HL); auto; apply (norm_Z W n norm En k Tk); auto). split.
  - intros x Hx. apply assign_ok in E3 as (_ & _ & Hlen & _ & HD). destruct (HD x Hx) as (idx & Hib & ->). rewrite (two_addressed sij Ti idx two_ij Hlen Hib). cbn [terms_val fold_left]. unfold term_val. cbn [coef].
    apply id_mul_l; auto. apply (ls_zdiv _ _ HL). auto.
  - intros Hz. apply (assign_coef B _ _ _ _ _ HB E3 two_ij). apply (ls_zz _ _ HL); auto. apply (norm2_Z B Zn HL). auto.
Qed.

(** ** one mode *)
Lemma grad_lost M S W g (g' : tensor N) : gradsubprob M S W g = Ok g' -> okm M -> allT B M -> okm g' /\ allT B g'.
Proof.
  unfold gradsubprob. intros E HM HMB. pose proof E as E'. apply assign_ok in E' as (Eln & Hwf & Hlen & Hok & _).
  pose proof (Hok _ (or_introl eq_refl)) as Ho1. split.
  - destruct HM as (HMw & HMo & HMp). split; [auto|]. assert (Hog : order g = 2) by (rewrite <- Hlen; reflexivity). split; [unfold order in *; rewrite Eln; auto|].
    destruct (lens2 M HMo) as (a & b & ElM). destruct (lens2 g Hog) as (c & d & Elg). unfold term_ok in Ho1. apply andb_true_iff in Ho1 as [_ Hc]. cbn [facs dims flat_map snd fst app] in Hc.
    rewrite ElM, Elg in Hc. cbn [combine sij app] in Hc.
    assert (K1 : c = a). { apply eq_trans with (assoc ch_i [(ch_i, c); (ch_j, d); (ch_i, a); (ch_j, b)]); [reflexivity|]. apply (consistent_in _ _ _ Hc). right. right. left. auto. }
    assert (K2 : d = b). { apply eq_trans with (assoc ch_j [(ch_i, c); (ch_j, d); (ch_i, a); (ch_j, b)]); [reflexivity|]. apply (consistent_in _ _ _ Hc). right. right. right. left. auto. }
    unfold posT in *. rewrite Eln, Elg. rewrite ElM in HMp. subst. auto.
  - apply (assign_abs B g sij _ g' (nopp n1) [(M, sij)] (M, sij) HB E two_ij); [left; auto|left; auto|apply HM|auto|]. intros x Hx. cbn in Hx. destruct Hx.
Qed.
Context (fuel : nat) (parent sibling : smap str) (V : tensor N) (F : list (tensor N)) (regul : tensor N).

Lemma mode_ok (P : N -> Prop) i W G Sm mp sq st : ideal P -> (i <= 30)%nat -> alsCP_DT_mode LA fuel parent sibling V F regul i (W, G, Sm, mp, sq) = Ok st ->
  Q P V -> oks W -> Qmap P mp ->
  exists M Wi Wi' g g' Fi M' Sm' sq' mp', lget W i = Ok Wi /\ lget G i = Ok g /\ lget F i = Ok Fi /\ (i < length W)%nat /\ (i < length G)%nat /\
    okm M' /\ allT P M' /\ (allW B W -> allT B M') /\ assign true M' sij [prodt [(Fi, sij)]] = Ok M /\
    gradsubprob M Sm' Wi g = Ok g' /\ SVD_solve LA M Wi Sm' = Ok Wi' /\ Qmap P mp' /\ st = (lset W i Wi', lset G i g', Sm', mp', sq').
Proof.
  intros HP Hi E HV HW Hmp. unfold alsCP_DT_mode in E. apply bind_ok in E as (s1 & _ & E). apply bind_ok in E as (Wi & EWi & E). apply bind_ok in E as ([ix lh] & _ & E).
  apply bind_ok in E as ([mp' M'] & EM & E). apply bind_ok in E as (S1 & _ & E). apply bind_ok in E as (S2 & _ & E). apply bind_ok in E as (Fi & EF & E). apply bind_ok in E as (M & EM2 & E).
  apply bind_ok in E as (g & Eg & E). apply bind_ok in E as (g' & Eg' & E). apply bind_ok in E as (G' & EG & E). apply bind_ok in E as (Wi' & EWi' & E). apply bind_ok in E as (W' & EW & E).
  apply bind_ok in E as (s2 & _ & E). injection E as <-. apply lput_inv in EG as (HG & ->). apply lput_inv in EW as (HWl & ->).
  destruct (dt_M_ok B Zn HL P fuel parent sibling V W mp i mp' M' HP Hi EM HV HW Hmp) as (K1 & K2 & K3 & K4).
  exists M, Wi, Wi', g, g', Fi, M', S2, s2, mp'. split; [exact EWi|]. split; [exact Eg|]. split; [exact EF|]. split; [exact HWl|]. split; [exact HG|]. split; [exact K2|]. split; [exact K3|].
  split; [exact K4|]. split; [exact EM2|]. split; [exact Eg'|]. split; [exact EWi'|]. split; [exact K1|]. reflexivity.
Qed.
Definition T_ : N -> Prop := fun _ => True.
Lemma oks_set (W : list (tensor N)) i T : oks W -> okm T -> oks (lset W i T).
Proof. intros H HT x Hx. apply in_lset in Hx as [->|Hx]; auto. Qed.
Lemma allW_set (P : N -> Prop) W i T : allW P W -> allT P T -> allW P (lset W i T).
Proof. intros H HT x Hx. apply in_lset in Hx as [->|Hx]; auto. Qed.
Lemma nth_lset_eq {A} (l : list A) i a : (i < length l)%nat -> nth_error (lset l i a) i = Some a.
Proof. intros H. rewrite lset_nth_error, Nat.eqb_refl. destruct (Nat.ltb_spec i (length l)); [auto|lia]. Qed.
Lemma nth_lset_neq {A} (l : list A) i k a : k <> i -> nth_error (lset l i a) k = nth_error l k.
Proof. intros H. rewrite lset_nth_error. destruct (Nat.eqb_spec k i); [contradiction|]. auto. Qed.

Definition lostG (j : nat) (G : list (tensor N)) : Prop := forall k, (k < j)%nat -> exists g, nth_error G k = Some g /\ okm g /\ allT B g.
Lemma modes_lost W G Sm sq W' G' Sm' mp' sq' : (order V <= 31)%nat -> posT V ->
  for_ 0 (order V) (alsCP_DT_mode LA fuel parent sibling V F regul) (W, G, Sm, sempty, sq) = Ok (W', G', Sm', mp', sq') -> oks W -> allW B W ->
  oks W' /\ allW B W' /\ length W' = length W /\ lostG (order V) G'.
Proof.
  intros Ho HV E HW HWB.
  refine (proj2 (for_part (fun j st => let '(X, H, _, mp, _) := st in Qmap T_ mp /\ oks X /\ allW B X /\ length X = length W /\ lostG j H) _ 0 (order V) _ _ (Nat.le_0_l _) E _ _)).
  { split; [intros k T Hk; discriminate|]. split; [exact HW|]. split; [exact HWB|]. split; [reflexivity|]. intros k Hk. lia. }
  intros j [[[[X H] S0] mp] s0] st Hj (K1 & K2 & K3 & K4 & K5) Em.
  destruct (mode_ok T_ j X H S0 mp s0 st ideal_true ltac:(lia) Em (conj HV (fun x _ => I)) K2 K1) as (M & Wi & Wi' & g & g' & Fi & M' & S1 & s1 & mp1 & EWi & Eg & EF & HlX & HlG & HM & _ & HMB & EM & Egr & Eso & Hmp1 & ->).
  assert (HM2 : okm M) by (apply (M_lens _ _ _ _ _ EM HM)).
  assert (HMB2 : allT B M) by (apply (assign_plus B _ _ _ _ HB EM); [apply HM|apply HMB; auto]).
  destruct (grad_lost _ _ _ _ _ Egr HM2 HMB2) as [Hg1 Hg2].
  split; [auto|]. split; [apply oks_set; auto; apply (solve_lens _ _ _ _ Eso); apply K2; apply lget_in with j; auto|]. split; [apply allW_set; auto; apply (solve_lost _ _ _ _ Eso); auto|].
  split; [rewrite lset_length; auto|]. intros k Hk. destruct (Nat.eq_dec k j) as [->|Hne]; [rewrite nth_lset_eq by auto; eauto|]. rewrite nth_lset_neq by auto. apply K5. lia.
Qed.
Lemma allW_nth (P : N -> Prop) W n : length W = n -> (forall i T, (i < n)%nat -> nth_error W i = Some T -> allT P T) -> allW P W.
Proof. intros Hl H T HT. apply In_nth_error in HT as (i & Hi). apply (H i); auto. rewrite <- Hl. apply nth_error_Some. congruence. Qed.
Lemma sweep_lost W G Sm sq W' G' Sm' sq' : (1 <= order V <= 31)%nat -> posT V -> length W = order V ->
  alsCP_DT_sweep LA fuel parent sibling V F regul W G Sm sq = Ok (W', G', Sm', sq') -> oks W -> allW B W ->
  oks W' /\ allW B W' /\ length W' = order V /\ lostG (order V) G'.
Proof.
  intros Ho HV Hl E HW HWB. unfold alsCP_DT_sweep in E. apply bind_ok in E as ([[[[W1 G1] S1] mp1] s1] & E1 & E). apply bind_ok in E as (W2 & E2 & E). injection E as <- <- <- <-.
  destruct (modes_lost _ _ _ _ _ _ _ _ _ (proj2 Ho) HV E1 HW HWB) as (K1 & K2 & K3 & K4). rewrite Hl in K3.
  assert (Hl2 : length W2 = order V) by (apply Normalize_each in E2 as (? & _ & El & _); congruence).
  split; [apply (Normalize_oks _ _ _ E2); auto|]. split; [|auto].
  apply (allW_nth B W2 (order V) Hl2). apply (Normalize_lost W1 (order V) W2); auto; [lia|].
  destruct (nth_error W1 0) as [T|] eqn:E0; [|apply nth_error_None in E0; lia]. pose proof (nth_error_In _ _ E0) as Hin. destruct (okm_in T (K1 T Hin)) as (x & Hx). exists 0%nat, T, x. repeat split; auto; [lia|]. apply (K2 T Hin x Hx).
Qed.
(** some entry of some factor not finite just before the normalisation *)
Lemma sweep_entry W G Sm sq W1 G1 S1 mp1 s1 W' G' Sm' sq' : (1 <= order V)%nat -> length W = order V ->
  for_ 0 (order V) (alsCP_DT_mode LA fuel parent sibling V F regul) (W, G, Sm, sempty, sq) = Ok (W1, G1, S1, mp1, s1) ->
  alsCP_DT_sweep LA fuel parent sibling V F regul W G Sm sq = Ok (W', G', Sm', sq') -> length W1 = order V ->
  (exists i T x, (i < order V)%nat /\ nth_error W1 i = Some T /\ In x (data T) /\ B x) -> allW B W'.
Proof.
  intros Ho Hl E1 E Hl1 H. unfold alsCP_DT_sweep in E. rewrite E1 in E. cbn [bind] in E. apply bind_ok in E as (W2 & E2 & E). injection E as <- <- <- <-.
  assert (Hl2 : length W2 = order V) by (apply Normalize_each in E2 as (? & _ & El & _); congruence).
  apply (allW_nth B W2 (order V) Hl2). apply (Normalize_lost W1 (order V) W2); auto.
Qed.

(** ** a singular system *)
Lemma gram_okm Sm W o index (S' : tensor N) : gram_index Sm W o index = Ok S' -> okm Sm -> okm S'.
Proof.
  unfold gram_index. intros E H. apply bind_ok in E as (i0 & _ & E). apply bind_ok in E as (W0 & _ & E). apply bind_ok in E as (S1 & E1 & E).
  refine (for_keep okm _ _ _ _ _ E (M_lens _ _ _ _ _ E1 H) _). intros j s s' Hs E2. apply bind_ok in E2 as (i & _ & E2). apply bind_ok in E2 as (Wi & _ & E2). apply (M_lens _ _ _ _ _ E2 Hs).
Qed.
Lemma mode_sing i W G Sm mp sq W' G' Sm' mp' sq' : alsCP_DT_mode LA fuel parent sibling V F regul i (W, G, Sm, mp, sq) = Ok (W', G', Sm', mp', sq') -> oks W -> okm Sm ->
  okm Sm' /\ oks W' /\ length W' = length W /\ (forall k, k <> i -> nth_error W' k = nth_error W k) /\
  exists T, nth_error W' i = Some T /\ okm T /\ (forall U s VT j, svd LA Sm' (ncol Sm') = (U, s, VT) -> lens s = [ncol Sm'] -> wf s -> (j < ncol Sm')%nat -> Zn (at_ s [j]) -> allT B T).
Proof.
  intros E HW HS. unfold alsCP_DT_mode in E. apply bind_ok in E as (s1 & _ & E). apply bind_ok in E as (Wi & EWi & E). apply bind_ok in E as ([ix lh] & _ & E).
  apply bind_ok in E as ([mp1 M'] & _ & E). apply bind_ok in E as (S1 & ES1 & E). apply bind_ok in E as (S2 & ES2 & E). apply bind_ok in E as (Fi & _ & E). apply bind_ok in E as (M & _ & E).
  apply bind_ok in E as (g & _ & E). apply bind_ok in E as (g' & _ & E). apply bind_ok in E as (G1 & _ & E). apply bind_ok in E as (Wi' & EWi' & E). apply bind_ok in E as (W1 & EW & E).
  apply bind_ok in E as (s2 & _ & E). injection E as <- <- <- <- <-. apply lput_inv in EW as (HWl & ->).
  assert (HS2 : okm S2) by (apply (M_lens _ _ _ _ _ ES2); apply (gram_okm _ _ _ _ _ ES1 HS)).
  assert (HT : okm Wi') by (apply (solve_lens _ _ _ _ EWi'); apply HW; apply lget_in with i; auto).
  split; [auto|]. split; [apply oks_set; auto|]. split; [apply lset_length|]. split; [intros k Hk; apply nth_lset_neq; auto|].
  exists Wi'. split; [apply nth_lset_eq; auto|]. split; [auto|]. intros U s VT j E1 E2 E3 E4 E5. apply (solve_sing M Wi S2 Wi' U s VT j); auto.
Qed.
Lemma sweep_sing n W G Sm sq W1 G1 S1 mp1 s1 W' G' Sm' sq' : (n < order V)%nat -> length W = order V -> oks W -> okm Sm ->
  for_ 0 (Datatypes.S n) (alsCP_DT_mode LA fuel parent sibling V F regul) (W, G, Sm, sempty, sq) = Ok (W1, G1, S1, mp1, s1) ->
  alsCP_DT_sweep LA fuel parent sibling V F regul W G Sm sq = Ok (W', G', Sm', sq') ->
  (exists U s VT j, svd LA S1 (ncol S1) = (U, s, VT) /\ lens s = [ncol S1] /\ wf s /\ (j < ncol S1)%nat /\ Zn (at_ s [j])) -> allW B W'.
Proof.
  intros Hn Hl HW HS E1 E (U & s & VT & j & Es & K1 & K2 & K3 & K4). unfold alsCP_DT_sweep in E. apply bind_ok in E as ([[[[W2 G2] S2] mp2] s2] & E2 & E). apply bind_ok in E as (W3 & E3 & E). injection E as <- <- <- <-.
  rewrite (for_split 0 n (Datatypes.S n)) in E1 by lia. apply bind_ok in E1 as ([[[[W0 G0] S0] mp0] s0] & E0 & E1). pose proof E1 as Em. unfold for_ in Em. replace (Datatypes.S n - n)%nat with 1%nat in Em by lia. cbn [loop] in Em. apply bind_ok in Em as (st & Em & Em2). injection Em2 as ->.
  rewrite (for_split 0 n (order V)) in E2 by lia. rewrite E0 in E2. cbn [bind] in E2. rewrite (for_split n (Datatypes.S n) (order V)) in E2 by lia. rewrite E1 in E2. cbn [bind] in E2. clear E1.
  assert (Hpre : oks W0 /\ okm S0 /\ length W0 = order V).
  { refine (for_keep (fun st => let '(X, _, Y, _, _) := st in oks X /\ okm Y /\ length X = order V) _ _ _ _ _ E0 (conj HW (conj HS Hl)) _). intros k [[[[X H] Y] m] q] [[[[X' H'] Y'] m'] q'] (A1 & A2 & A3) Ek.
    destruct (mode_sing _ _ _ _ _ _ _ _ _ _ _ Ek A1 A2) as (B1 & B2 & B3 & _). split; [auto|]. split; [auto|congruence]. }
  destruct Hpre as (P1 & P2 & P3). destruct (mode_sing _ _ _ _ _ _ _ _ _ _ _ Em P1 P2) as (Q1 & Q2 & Q3 & _ & T & Q4 & Q5 & Q6).
  assert (HT : allT B T) by (apply (Q6 U s VT j); auto).
  assert (Hpost : oks W2 /\ okm S2 /\ length W2 = order V /\ nth_error W2 n = Some T).
  { refine (for_part (fun k st => let '(X, _, Y, _, _) := st in oks X /\ okm Y /\ length X = order V /\ nth_error X n = Some T) _ (Datatypes.S n) (order V) _ _ Hn E2 _ _).
    - split; [auto|]. split; [auto|]. split; [congruence|auto].
    - intros k [[[[X H] Y] m] q] [[[[X' H'] Y'] m'] q'] Hk (A1 & A2 & A3 & A4) Ek. destruct (mode_sing _ _ _ _ _ _ _ _ _ _ _ Ek A1 A2) as (B1 & B2 & B3 & B4 & _). split; [auto|]. split; [auto|]. split; [congruence|]. rewrite B4 by lia. auto. }
  destruct Hpost as (R1 & _ & R3 & R4). assert (Hl2 : length W3 = order V) by (apply Normalize_each in E3 as (? & _ & El & _); congruence).
  apply (allW_nth B W3 (order V) Hl2). apply (Normalize_lost W2 (order V) W3); auto; [lia|]. destruct (okm_in T Q5) as (x & Hx). exists n, T, x. repeat split; auto.
Qed.

(** ** a zero tensor *)
Lemma modes_Z W G Sm sq W' G' Sm' mp' sq' : (order V <= 31)%nat -> posT V -> allT Zn V -> allW Zn F ->
  for_ 0 (order V) (alsCP_DT_mode LA fuel parent sibling V F regul) (W, G, Sm, sempty, sq) = Ok (W', G', Sm', mp', sq') -> oks W ->
  oks W' /\ length W' = length W /\ (forall k T, (k < order V)%nat -> nth_error W' k = Some T -> allT Zn T).
Proof.
  intros Ho HV HVZ HF E HW.
  refine (proj2 (for_part (fun j st => let '(X, H, _, mp, _) := st in Qmap Zn mp /\ oks X /\ length X = length W /\ (forall k T, (k < j)%nat -> nth_error X k = Some T -> allT Zn T)) _ 0 (order V) _ _ (Nat.le_0_l _) E _ _)).
  { split; [intros k T Hk; discriminate|]. split; [exact HW|]. split; [reflexivity|]. intros k T Hk. lia. }
  intros j [[[[X H] S0] mp] s0] st Hj (K1 & K2 & K4 & K5) Em.
  destruct (mode_ok Zn j X H S0 mp s0 st HZ ltac:(lia) Em (conj HV HVZ) K2 K1) as (M & Wi & Wi' & g & g' & Fi & M' & S1 & s1 & mp1 & EWi & Eg & EF & HlX & HlG & HM & HMZ & _ & EM & Egr & Eso & Hmp1 & ->).
  assert (HMZ2 : allT Zn M) by (apply (assign_ideal Zn true M' sij n1 _ M (Fi, sij) HZ EM); [left; auto|apply HF; apply lget_in with j; auto|auto]).
  split; [auto|]. split; [apply oks_set; auto; apply (solve_lens _ _ _ _ Eso); apply K2; apply lget_in with j; auto|]. split; [rewrite lset_length; auto|].
  intros k T Hk. destruct (Nat.eq_dec k j) as [->|Hne]; [rewrite nth_lset_eq by auto; intros ET; injection ET as <-; apply (solve_Z _ _ _ _ Eso); auto|]. rewrite nth_lset_neq by auto. apply K5. lia.
Qed.
Lemma sweep_Z W G Sm sq W' G' Sm' sq' : (1 <= order V <= 31)%nat -> posT V -> allT Zn V -> allW Zn F -> length W = order V ->
  alsCP_DT_sweep LA fuel parent sibling V F regul W G Sm sq = Ok (W', G', Sm', sq') -> oks W -> oks W' /\ allW B W' /\ length W' = order V.
Proof.
  intros Ho HV HVZ HF Hl E HW. unfold alsCP_DT_sweep in E. apply bind_ok in E as ([[[[W1 G1] S1] mp1] s1] & E1 & E). apply bind_ok in E as (W2 & E2 & E). injection E as <- <- <- <-.
  destruct (modes_Z _ _ _ _ _ _ _ _ _ (proj2 Ho) HV HVZ HF E1 HW) as (K1 & K3 & K4). rewrite Hl in K3.
  assert (Hl2 : length W2 = order V) by (apply Normalize_each in E2 as (? & _ & El & _); congruence).
  split; [apply (Normalize_oks _ _ _ E2); auto|]. split; [|auto].
  apply (allW_nth B W2 (order V) Hl2). intros i T Hi HT. destruct (nth_error W1 i) as [Ti|] eqn:Ei; [|apply nth_error_None in Ei; lia].
  apply (proj2 (Normalize_zero W1 (order V) W2 ltac:(lia) E2 i Ti Hi Ei (K4 i Ti Hi Ei) i Ti T Hi Ei HT)). apply (K4 i); auto.
Qed.

(** ** the driver *)
Context (clk : nat -> N) (rank0 : bool) (tol timelimit : N) (maxiter resprint : Z) (bench : bool).
Definition timeout : Prop := exists n s, nltb timelimit (clk n - s) = true.
Lemma sumnorm_B o G (p : N) : (1 <= o)%nat -> lostG o G -> sumnorm o G = Ok p -> exists y, B y /\ p = nsqrt y.
Proof.
  intros Ho HG E. unfold sumnorm in E. apply bind_ok in E as (y & E & E2). injection E2 as <-. exists y. split; auto.
  refine (for_part (fun j (v : N) => (0 < j)%nat -> B v) _ 0 o _ _ (Nat.le_0_l o) E _ _ Ho); [lia|].
  intros j v v' Hj _ E2 _. apply bind_ok in E2 as (g & Eg & E2). injection E2 as <-. apply ab_add_r; auto. destruct (HG j ltac:(lia)) as (g' & Eg' & H1 & H2). apply lget_nth in Eg. assert (g' = g) by congruence. subst g'.
  apply HB. destruct (okm_in g H1) as (x & Hx). apply (norm2_B B Zn HL g x); auto.
Qed.
Lemma check_stop st iter b st' : (1 <= order V)%nat -> lostG (order V) (dtG st) \/ (exists p, sumnorm (order V) (dtG st) = Ok p /\ nltb p tol = false) ->
  alsCP_DT_check clk rank0 V tol timelimit bench iter st = Ok (b, st') -> (b = true -> timeout) /\ dtW st' = dtW st /\ dtG st' = dtG st.
Proof.
  intros Ho H E. unfold alsCP_DT_check in E. apply bind_ok in E as ([[[pn dn] dt] x] & E1 & E). destruct (stop_test clk pn tol timelimit _) as [s y] eqn:Es in E. injection E as <- <-. cbn [dtW dtG]. split; [|auto].
  intros ->. unfold stop_test in Es. unfold measure in E1. destruct (check_begin clk (dtio st)) as [t1 x1]. apply bind_ok in E1 as (pn' & Ep & E1). apply bind_ok in E1 as (dn' & _ & E1). destruct (check_end clk t1 x1) as [d1 x2]. injection E1 as <- _ _ _.
  assert (Hp : nltb pn' tol = false).
  { destruct H as [HG|(p & E2 & H2)]; [|congruence]. destruct (sumnorm_B _ _ _ Ho HG Ep) as (y0 & Hy & ->). apply (ls_test _ _ HL). auto. }
  rewrite Hp in Es. unfold wtime in Es. injection Es as Es _. unfold timeout. eauto.
Qed.
Lemma for_iter_step {S} (body : Z -> S -> res (flow * S)) n it s r : for_iter n it body s = Ok r ->
  forall (I : Z -> S -> Prop) (E : Z -> S -> Prop), I it s ->
  (forall j s s', (it <= j < it + Z.of_nat n)%Z -> I j s -> body j s = Ok (Go, s') -> I (j + 1)%Z s') ->
  (forall j f s s', (it <= j < it + Z.of_nat n)%Z -> I j s -> body j s = Ok (f, s') -> f <> Go -> E j s') ->
  (snd (fst r) = it + Z.of_nat n /\ I (it + Z.of_nat n) (snd r))%Z \/ (it <= snd (fst r) < it + Z.of_nat n /\ E (snd (fst r)) (snd r))%Z.
Proof.
  revert it s. induction n as [|n IH]; intros it s E I J HI Hg He; cbn [for_iter] in E.
  - injection E as <-. left. cbn [fst snd]. rewrite Z.add_0_r. auto.
  - apply bind_ok in E as ([f s1] & E1 & E). destruct f; [|right|right].
    + destruct (IH (it + 1)%Z s1 E I J) as [[K1 K2]|[K1 K2]].
      * apply (Hg it s); auto. lia.
      * intros j t t' Hj. apply Hg. lia.
      * intros j f t t' Hj. apply He. lia.
      * left. replace (it + Z.of_nat (Datatypes.S n))%Z with (it + 1 + Z.of_nat n)%Z by lia. auto.
      * right. split; [lia|auto].
    + injection E as <-. cbn [fst snd]. split; [lia|]. apply (He it Break s); auto; [lia|discriminate].
    + injection E as <-. cbn [fst snd]. split; [lia|]. apply (He it Return s); auto; [lia|discriminate].
Qed.
Lemma iter_parts iter st f st' : alsCP_DT_iter LA clk rank0 fuel parent sibling V F regul tol timelimit maxiter resprint bench iter st = Ok (f, st') ->
  (1 <= order V)%nat -> lostG (order V) (dtG st) \/ (exists p, sumnorm (order V) (dtG st) = Ok p /\ nltb p tol = false) \/ (Z.rem iter resprint <> 0 /\ iter <> maxiter)%Z ->
  (f = Break /\ timeout /\ dtW st' = dtW st) \/
  (f = Go /\ exists Sm sq Sm' sq', alsCP_DT_sweep LA fuel parent sibling V F regul (dtW st) (dtG st) Sm sq = Ok (dtW st', dtG st', Sm', sq')).
Proof.
  intros E Ho H. unfold alsCP_DT_iter in E. unfold zmod in E. destruct (Z.eqb_spec resprint 0); [discriminate|]. cbn [bind] in E. apply bind_ok in E as ([stop s1] & E1 & E).
  assert (K : (stop = true -> timeout) /\ dtW s1 = dtW st /\ dtG s1 = dtG st).
  { destruct ((Z.rem iter resprint =? 0)%Z || (iter =? maxiter)%Z)%bool eqn:Et; [|injection E1 as <- <-; split; [discriminate|auto]].
    apply (check_stop st iter); auto. destruct H as [H|[H|[H1 H2]]]; auto. exfalso. apply Z.eqb_neq in H1, H2. rewrite H1, H2 in Et. discriminate. }
  destruct K as (K1 & K2 & K3). destruct stop.
  - injection E as <- <-. left. auto.
  - apply bind_ok in E as ([[[W G] S1] s2] & E2 & E). injection E as <- <-. right. split; auto. rewrite K2, K3 in E2. cbn [dtW dtG]. eauto.
Qed.
Lemma iter_parts0 iter st f st' : alsCP_DT_iter LA clk rank0 fuel parent sibling V F regul tol timelimit maxiter resprint bench iter st = Ok (f, st') ->
  (f = Break /\ dtW st' = dtW st /\ dtG st' = dtG st) \/
  (f = Go /\ exists Sm sq Sm' sq', alsCP_DT_sweep LA fuel parent sibling V F regul (dtW st) (dtG st) Sm sq = Ok (dtW st', dtG st', Sm', sq')).
Proof.
  intros E. unfold alsCP_DT_iter in E. apply bind_ok in E as (m & _ & E). apply bind_ok in E as ([stop s1] & E1 & E).
  assert (K : dtW s1 = dtW st /\ dtG s1 = dtG st).
  { destruct ((m =? 0)%Z || (iter =? maxiter)%Z)%bool eqn:Et; [|injection E1 as <- <-; auto].
    unfold alsCP_DT_check in E1. apply bind_ok in E1 as ([[[pn dn] dt] x] & _ & E1). destruct (stop_test clk pn tol timelimit _) as [s y] eqn:Es in E1. injection E1 as <- <-. auto. }
  destruct K as (K2 & K3). destruct stop.
  - injection E as <- <-. left. auto.
  - apply bind_ok in E as ([[[W G] S1] s2] & E2 & E). injection E as <- <-. right. split; auto. rewrite K2, K3 in E2. cbn [dtW dtG]. eauto.
Qed.
End A.

Section B.
Context {N : num} (LA : lapack N).
Local Open Scope num_scope.
Context (B Zn : N -> Prop) (HL : lossy B Zn).
Context (fuel : nat) (V : tensor N) (F : list (tensor N)) (clk : nat -> N) (rank0 : bool) (tol timelimit : N) (maxiter resprint : Z) (bench : bool).
Lemma run_parts W G lambda x ret st : alsCP_DT LA clk rank0 fuel V W G F tol timelimit maxiter lambda resprint bench x = Ok (ret, st) ->
  exists parent sibling regul f it Sm sq y, for_iter (rounds 0 maxiter) 0 (alsCP_DT_iter LA clk rank0 fuel parent sibling V F regul tol timelimit maxiter resprint bench) (mkDt W G Sm sq n0 y) = Ok (f, it, st) /\ ret = negb (Z.eqb it (maxiter + 1)).
Proof.
  unfold alsCP_DT. intros E. apply bind_ok in E as (W0 & _ & E). apply bind_ok in E as (rg & _ & E). destruct (wtime clk x) as [t y]. apply bind_ok in E as (sq & _ & E). apply bind_ok in E as ([pa si] & _ & E).
  apply bind_ok in E as ([[f it] st'] & E1 & E). injection E as <- <-. eauto 12.
Qed.
Lemma run_lost W G lambda x ret st : (1 <= order V <= 31)%nat -> posT V -> length W = order V -> oks W -> allW B W -> lostG B (order V) G -> (0 <= maxiter)%Z ->
  alsCP_DT LA clk rank0 fuel V W G F tol timelimit maxiter lambda resprint bench x = Ok (ret, st) ->
  oks (dtW st) /\ allW B (dtW st) /\ lostG B (order V) (dtG st) /\ (ret = true -> timeout clk timelimit).
Proof.
  intros Ho HV Hl HW HWB HG Hm E. apply run_parts in E as (pa & si & rg & f & it & Sm & sq & y & E & ->).
  set (I := fun (_ : Z) (s : dt_state) => oks (dtW s) /\ allW B (dtW s) /\ length (dtW s) = order V /\ lostG B (order V) (dtG s)).
  destruct (for_iter_step _ _ _ _ _ E I (fun j s => I j s /\ timeout clk timelimit)) as [[K1 K2]|[K1 K2]].
  - unfold I. cbn [dtW dtG]. auto.
  - intros j s s' _ (H1 & H2 & H3 & H4) Eb. destruct (iter_parts0 _ _ _ _ _ _ _ _ _ _ _ _ _ _ _ _ _ _ Eb) as [(Ef & _)|(_ & S1 & q1 & S2 & q2 & Esw)]; [discriminate|].
    destruct (sweep_lost LA B Zn HL _ _ _ _ _ _ _ _ _ _ _ _ _ _ Ho HV H3 Esw H1 H2) as (A1 & A2 & A3 & A4). unfold I. auto.
  - intros j g s s' _ (H1 & H2 & H3 & H4) Eb Hne. pose proof Eb as Eb'.
    destruct (iter_parts LA B Zn HL _ _ _ _ _ _ _ _ _ _ _ _ _ _ _ _ _ Eb ltac:(lia) (or_introl H4)) as [(_ & Ht & _)|(Ef & _)]; [|contradiction].
    destruct (iter_parts0 _ _ _ _ _ _ _ _ _ _ _ _ _ _ _ _ _ _ Eb') as [(_ & Ew & Eg)|(Ef & _)]; [|contradiction]. unfold I. rewrite Ew, Eg. auto.
  - cbn [fst snd] in K1, K2. destruct K2 as (H1 & H2 & H3 & H4). repeat split; auto; try (apply H1; auto). intros Hr. exfalso. unfold rounds in K1. rewrite K1 in Hr. apply negb_true_iff, Z.eqb_neq in Hr. lia.
  - cbn [fst snd] in K1, K2. destruct K2 as ((H1 & H2 & H3 & H4) & Ht). split; [exact H1|]. auto.
Qed.
Lemma run_zero W G lambda x ret st : (1 <= order V <= 31)%nat -> posT V -> allT Zn V -> allW Zn F -> length W = order V -> oks W -> (0 <= maxiter)%Z ->
  alsCP_DT LA clk rank0 fuel V W G F tol timelimit maxiter lambda resprint bench x = Ok (ret, st) ->
  (ret = false -> allW B (dtW st)) /\
  ((2 <= maxiter)%Z -> (2 <= resprint)%Z -> (exists p, sumnorm (order V) G = Ok p /\ nltb p tol = false) -> ret = true -> timeout clk timelimit).
Proof.
  intros Ho HV HVZ HF Hl HW Hm E. apply run_parts in E as (pa & si & rg & f & it & Sm & sq & y & E & ->). split.
  - intros Hr. apply negb_false_iff, Z.eqb_eq in Hr.
    set (I := fun (j : Z) (s : dt_state) => oks (dtW s) /\ length (dtW s) = order V /\ ((1 <= j)%Z -> allW B (dtW s))).
    destruct (for_iter_step _ _ _ _ _ E I (fun j s => True)) as [[K1 K2]|[K1 K2]]; auto.
    + unfold I. cbn [dtW dtG]. repeat split; auto; try (apply HW; auto). lia.
    + intros j s s' _ (H1 & H2 & _) Eb. destruct (iter_parts0 _ _ _ _ _ _ _ _ _ _ _ _ _ _ _ _ _ _ Eb) as [(Ef & _)|(_ & S1 & q1 & S2 & q2 & Esw)]; [discriminate|].
      destruct (sweep_Z LA B Zn HL _ _ _ _ _ _ _ _ _ _ _ _ _ _ Ho HV HVZ HF H2 Esw H1) as (A1 & A2 & A3). unfold I. auto.
    + cbn [fst snd] in K1, K2. apply K2. unfold rounds. lia.
    + cbn [fst snd] in K1. unfold rounds in K1. exfalso. lia.
  - intros Hm2 Hr2 Hp Hr. apply negb_true_iff, Z.eqb_neq in Hr.
    set (I := fun (j : Z) (s : dt_state) => oks (dtW s) /\ length (dtW s) = order V /\ (j = 0%Z -> dtG s = G) /\ ((1 <= j)%Z -> allW B (dtW s)) /\ ((2 <= j)%Z -> lostG B (order V) (dtG s))).
    destruct (for_iter_step _ _ _ _ _ E I (fun j s => timeout clk timelimit)) as [[K1 K2]|[K1 K2]]; auto.
    + unfold I. cbn [dtW dtG]. repeat split; auto; try (apply HW; auto); intros; exfalso; lia.
    + intros j s s' Hj (H1 & H2 & _ & H3 & _) Eb. destruct (iter_parts0 _ _ _ _ _ _ _ _ _ _ _ _ _ _ _ _ _ _ Eb) as [(Ef & _)|(_ & S1 & q1 & S2 & q2 & Esw)]; [discriminate|].
      destruct (sweep_Z LA B Zn HL _ _ _ _ _ _ _ _ _ _ _ _ _ _ Ho HV HVZ HF H2 Esw H1) as (A1 & A2 & A3). unfold I. split; [auto|]. split; [auto|]. split; [lia|]. split; [auto|].
      intros Hj2. apply (sweep_lost LA B Zn HL _ _ _ _ _ _ _ _ _ _ _ _ _ _ Ho HV H2 Esw H1). apply H3. lia.
    + intros j g s s' Hj (H1 & H2 & H0 & H3 & H4) Eb Hne.
      destruct (iter_parts LA B Zn HL _ _ _ _ _ _ _ _ _ _ _ _ _ _ _ _ _ Eb ltac:(lia)) as [(_ & Ht & _)|(Ef & _)]; [|auto|contradiction].
      destruct (Z.eq_dec j 0) as [->|]; [right; left; rewrite H0; auto|]. destruct (Z.eq_dec j 1) as [->|]; [|left; apply H4; lia].
      right. right. split; [rewrite Z.rem_small by lia; lia|lia].
    + cbn [fst snd] in K1. unfold rounds in K1. exfalso. lia.
Qed.
End B.
