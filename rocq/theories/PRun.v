(** Proofs about the command line *)
From Coq Require Import List ZArith QArith Bool Arith Lia String Ascii Decimal DecimalString DecimalZ DecimalPos.
From Verif Require Import Base Num Tensor Spec6 MRun.
Import ListNotations.
Local Close Scope Q_scope.
Local Open Scope string_scope.

Lemma get_chosen argv o v : getCmdOption argv o = Some v <-> chosen argv o v.
Proof.
  unfold chosen. induction argv as [|a rest IH]; cbn [getCmdOption].
  - split; [discriminate|]. intros (pre & post & E & _). destruct pre; discriminate.
  - destruct (String.eqb_spec a o) as [->|Hne].
    + split.
      * destruct rest as [|b rest]; cbn; [discriminate|]. intros [= ->]. exists [], rest. split; auto.
      * intros (pre & post & E & Hp). destruct pre as [|p pre]; cbn in E.
        -- injection E as E. subst rest. auto.
        -- injection E as E1 E2. subst p. exfalso. apply Hp. left. auto.
    + rewrite IH. split; intros (pre & post & E & Hp).
      * exists (a :: pre), post. subst rest. split; auto. intros [|]; auto.
      * destruct pre as [|p pre]; cbn in E; injection E as E1 E2; [congruence|]. exists pre, post. split; auto.
        intros H. apply Hp. right. auto.
Qed.
Lemma get_none argv o : getCmdOption argv o = None -> forall v, ~ chosen argv o v.
Proof. intros H v Hc. apply get_chosen in Hc. congruence. Qed.
Lemma setting_intro {A} argv o (conv : string -> A) (ok : A -> Prop) (bad : A -> bool) dflt :
  (forall x, bad x = false <-> ok x) ->
  setting argv o conv ok dflt (match getCmdOption argv o with Some v => if bad (conv v) then dflt else conv v | None => dflt end).
Proof.
  intros Hb. unfold setting. destruct (getCmdOption argv o) as [w|] eqn:E.
  - assert (Hw : forall v, chosen argv o v -> v = w) by (intros v Hv; apply get_chosen in Hv; congruence).
    split; [|split].
    + intros v Hv Ho. apply Hw in Hv. subst v. apply Hb in Ho. rewrite Ho. auto.
    + intros v Hv Ho. apply Hw in Hv. subst v. destruct (bad (conv w)) eqn:Eb; auto. apply Hb in Eb. tauto.
    + intros H. exfalso. apply (H w). apply get_chosen. auto.
  - split; [|split]; auto; intros v Hv; exfalso; apply (get_none _ _ E v Hv).
Qed.
Lemma setting_ok {A} argv o (conv : string -> A) (ok : A -> Prop) dflt x : (forall y, ok y \/ ~ ok y) ->
  setting argv o conv ok dflt x -> ok dflt -> ok x.
Proof.
  intros Hd (H1 & H2 & H3) Ho. destruct (getCmdOption argv o) as [v|] eqn:E.
  - apply get_chosen in E. destruct (Hd (conv v)); [rewrite (H1 v); auto|rewrite (H2 v); auto].
  - rewrite H3; auto. apply get_none. auto.
Qed.

(** ** atoi reads back a decimal number *)
Lemma digits_acc d : forall p, digits (NilEmpty.string_of_uint d) (Zpos p) = Zpos (Pos.of_uint_acc d p).
Proof.
  induction d; intros p; cbn [NilEmpty.string_of_uint digits Pos.of_uint_acc]; auto; rewrite <- IHd;
  match goal with |- context [digit ?c] => let v := eval vm_compute in (digit c) in change (digit c) with v end; cbn iota; f_equal; lia.
Qed.
Lemma digits_uint d : digits (NilEmpty.string_of_uint d) 0 = Z.of_N (Pos.of_uint d).
Proof. induction d; cbn [NilEmpty.string_of_uint digits Pos.of_uint]; auto; try apply (digits_acc d). Qed.
Lemma digits_uintZ d : digits (NilZero.string_of_uint d) 0 = Z.of_uint d.
Proof. destruct d; [reflexivity|..]; apply digits_uint. Qed.
Lemma skip_uint d : skip_space (NilZero.string_of_uint d) = NilZero.string_of_uint d.
Proof. destruct d; reflexivity. Qed.
Lemma strtol_int i : (- 2 ^ 63 <= Z.of_int i < 2 ^ 63)%Z -> strtol (NilZero.string_of_int i) = Z.of_int i.
Proof.
  intros Hr. unfold strtol. destruct i as [d|d]; cbn [NilZero.string_of_int Z.of_int] in *.
  - rewrite skip_uint. replace (match NilZero.string_of_uint d with
           | String "-" r => - digits r 0
           | String "+" r => digits r 0
           | r => digits r 0
           end%Z) with (digits (NilZero.string_of_uint d) 0) by (destruct d; reflexivity).
    rewrite digits_uintZ. lia.
  - cbn [skip_space is_space nat_of_ascii]. change (is_space "-") with false. cbn iota. rewrite digits_uintZ. lia.
Qed.
(** the printed form of a 32-bit integer *)
Definition decimal (z : Z) : string := NilZero.string_of_int (Z.to_int z).
Lemma atoi_decimal z : (- 2 ^ 31 <= z < 2 ^ 31)%Z -> atoi (decimal z) = z.
Proof.
  intros Hz. unfold atoi, decimal. rewrite strtol_int; rewrite of_to; [|lia].
  unfold to_int. rewrite Z.mod_small by lia. lia.
Qed.

(** atoi on every kind of token *)
Lemma is_space_blank c : is_space c = true <-> blank c.
Proof.
  split; [|intros H; repeat (destruct H as [<-|H]; [reflexivity|]); destruct H].
  destruct c as [[] [] [] [] [] [] [] []]; intros H; try discriminate H; unfold blank; cbn [In]; auto 10.
Qed.
Lemma digit_is c : is_digit c -> digit c = Some (Z.of_nat (nat_of_ascii c) - 48)%Z.
Proof. intros H; repeat (destruct H as [<-|H]; [reflexivity|]); destruct H. Qed.
Lemma digit_not c : ~ is_digit c -> digit c = None.
Proof. destruct c as [[] [] [] [] [] [] [] []]; intros H; try reflexivity; exfalso; apply H; unfold is_digit; cbn [In]; auto 12. Qed.
Lemma skip_blanks ws s : all_chars blank ws -> ~ starts_with blank s -> skip_space (ws ++ s) = s.
Proof.
  intros Hw Hs. induction ws as [|c ws IH].
  - destruct s as [|c s]; [reflexivity|]. cbn [append skip_space]. destruct (is_space c) eqn:E; [|reflexivity]. exfalso. apply Hs. exists c, s. split; auto. apply is_space_blank. auto.
  - destruct Hw as [Hc Hw]. cbn [append skip_space]. apply is_space_blank in Hc. rewrite Hc. auto.
Qed.
Lemma digits_value ds rest : all_chars is_digit ds -> ~ starts_with is_digit rest -> forall acc, digits (ds ++ rest) acc = value_from acc ds.
Proof.
  intros Hd Hr. induction ds as [|c ds IH]; intros acc.
  - cbn [append value_from]. destruct rest as [|c rest]; [reflexivity|]. cbn [digits]. rewrite digit_not; [reflexivity|]. intros H. apply Hr. exists c, rest. auto.
  - destruct Hd as [Hc Hd]. cbn [append digits value_from]. rewrite digit_is by auto. rewrite IH by auto. f_equal. lia.
Qed.
Lemma as_int_to_int v y : as_int v y -> to_int (Z.max (- 2 ^ 63) (Z.min v (2 ^ 63 - 1))) = y.
Proof.
  intros [H [k E]]. rewrite E. unfold to_int. replace (y + k * 2 ^ 32 + 2 ^ 31)%Z with (y + 2 ^ 31 + k * 2 ^ 32)%Z by lia. rewrite Z.mod_add by lia. rewrite Z.mod_small by lia. lia.
Qed.
Lemma atoi_tokens ws ds rest y : all_chars blank ws -> all_chars is_digit ds -> ~ starts_with is_digit rest ->
  (as_int (- value ds) y -> atoi (ws ++ "-" ++ ds ++ rest) = y) /\
  (as_int (value ds) y -> atoi (ws ++ "+" ++ ds ++ rest) = y) /\
  (as_int (value ds) y -> (ds = "" -> ~ starts_with blank rest /\ ~ starts_with signed rest) -> atoi (ws ++ ds ++ rest) = y).
Proof.
  intros Hw Hd Hr. unfold atoi, strtol.
  split; [|split].
  - intros Hy. rewrite skip_blanks; auto.
    + cbn [append]. rewrite digits_value by auto. apply as_int_to_int. exact Hy.
    + intros (c & r & E & Hb). injection E as <- _. repeat (destruct Hb as [Hb|Hb]; [discriminate|]). destruct Hb.
  - intros Hy. rewrite skip_blanks; auto.
    + cbn [append]. rewrite digits_value by auto. apply as_int_to_int. exact Hy.
    + intros (c & r & E & Hb). injection E as <- _. repeat (destruct Hb as [Hb|Hb]; [discriminate|]). destruct Hb.
  - intros Hy Hn. assert (Hnb : ~ starts_with blank (ds ++ rest)).
    { destruct ds as [|c ds]; [apply Hn; auto|]. intros (c' & r & E & Hb). injection E as <- _. destruct Hd as [Hc _]. apply is_space_blank in Hb.
      repeat (destruct Hc as [<-|Hc]; [discriminate Hb|]). destruct Hc. }
    rewrite skip_blanks by auto.
    assert (Hns : forall c r, (ds ++ rest)%string = String c r -> c <> "-"%char /\ c <> "+"%char).
    { intros c r E. destruct ds as [|c0 ds].
      - cbn [append] in E. destruct (Hn eq_refl) as [_ Hs]. split; intros ->; apply Hs; eexists _, _; (split; [exact E|]); [right|left]; reflexivity.
      - injection E as <- _. destruct Hd as [Hc _]. split; intros ->; repeat (destruct Hc as [Hc|Hc]; [discriminate Hc|]); destruct Hc. }
    replace (match (ds ++ rest)%string with
           | String "-" r => - digits r 0
           | String "+" r => digits r 0
           | r => digits r 0
           end%Z) with (digits (ds ++ rest) 0).
    + rewrite digits_value by auto. apply as_int_to_int. exact Hy.
    + destruct (ds ++ rest)%string as [|c r]; [reflexivity|]. destruct (Hns c r eq_refl) as [N1 N2].
      destruct c as [[] [] [] [] [] [] [] []]; try reflexivity; exfalso; [apply N2|apply N1]; reflexivity.
Qed.

(** ** the acceptance tests *)
Lemma neg_ok x : neg x = false <-> nonneg x.
Proof. unfold neg, nonneg. rewrite Z.ltb_ge. tauto. Qed.
Lemma range_ok lo hi x : ((x <? lo)%Z || (hi <? x)%Z) = false <-> between lo hi x.
Proof. unfold between. rewrite orb_false_iff, !Z.ltb_ge. tauto. Qed.
Lemma dneg_ok {N : num} (x : N) : dneg x = false <-> at_least (nlit 0) x.
Proof. unfold dneg, at_least, nle. tauto. Qed.
Lemma dout01_ok {N : num} (x : N) : dout01 x = false <-> in01 x.
Proof. unfold dout01, in01, nle. rewrite orb_false_iff. tauto. Qed.
Lemma never_ok {A} (x : A) : never x = false <-> anything x.
Proof. unfold never, anything. tauto. Qed.
Lemma model_ok m : bad_model m = false <-> starts_CT m.
Proof.
  unfold bad_model, starts_CT, char_at. destruct (String.get 0 m) as [c|]; [|split; [discriminate|intros []; discriminate]].
  rewrite andb_false_iff, !negb_false_iff, !Ascii.eqb_eq. split; intros []; [left|right|left|right]; congruence.
Qed.
Lemma opt_int_ok argv o bad ok dflt : (forall x, bad x = false <-> ok x) -> setting argv o atoi ok dflt (opt_int argv o bad dflt).
Proof. apply setting_intro. Qed.
Lemma opt_dbl_ok {N : num} (atof : string -> N) argv o bad ok dflt : (forall x, bad x = false <-> ok x) -> setting argv o atof ok dflt (opt_dbl atof argv o bad dflt).
Proof. apply setting_intro. Qed.
Lemma opt_str_ok argv o bad ok dflt : (forall x, bad x = false <-> ok x) -> setting argv o (fun s => s) ok dflt (opt_str argv o bad dflt).
Proof. apply setting_intro. Qed.
