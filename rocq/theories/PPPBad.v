(** Orders for which the operator construction of pairwise perturbation is undefined *)
From Coq Require Import List ZArith Lia Bool Arith.
From Verif Require Import Base Num Tensor Spec MCommon MCP PBase PTensor PGrad PDT PPP PPPSweep.
Import ListNotations.

Lemma cstr_long n : forall b k, nth_error b k = Some (Some 0%Z) ->
  (forall i, i < k -> exists c, nth_error b i = Some (Some c) /\ (i < n -> c <> 0%Z)) -> n <= k ->
  exists s, cstr b = Ok s /\ n <= length s.
Proof.
  induction n as [|n IH]; intros b k.
  - revert b. induction k as [|k IHk]; intros b Hk Hi _.
    + destruct b; [discriminate|]. cbn in Hk. injection Hk as ->. exists []. split; auto.
    + destruct (Hi 0) as (c & Hc & _); [lia|]. destruct b; [discriminate|]. cbn in Hc. injection Hc as ->. cbn [cstr].
      destruct (Z.eqb_spec c 0); [exists []; split; auto|].
      destruct (IHk b) as (s & E & _); [exact Hk| |lia|].
      * intros i Hik. destruct (Hi (S i)) as (c' & Hc' & _); [lia|]. exists c'. split; auto. lia.
      * rewrite E. cbn [bind]. eexists; split; [reflexivity|]. lia.
  - intros Hk Hi Hn. destruct (Hi 0) as (c & Hc & Hnz); [lia|]. destruct b; [discriminate|]. cbn in Hc. injection Hc as ->. cbn [cstr].
    destruct (Z.eqb_spec c 0); [exfalso; apply Hnz; auto; lia|].
    destruct k; [lia|]. destruct (IH b k) as (s & E & Hs); [exact Hk| |lia|].
    + intros i Hik. destruct (Hi (S i)) as (c' & Hc' & Hz); [lia|]. exists c'. split; auto. intros. apply Hz. lia.
    + rewrite E. cbn [bind]. eexists; split; [reflexivity|]. cbn. lia.
Qed.
(** the key of the first pair, (0,1), is at least nine letters long *)
Lemma first_pair_long o : 11 <= o -> exists s, seq_except2 o (lbuf o) 0 1 = Ok s /\ 9 <= length s.
Proof.
  intros Ho. unfold seq_except2. destruct (Nat.ltb_spec o 2); [lia|]. rewrite bset_ok by blen. cbn [bind].
  rewrite !sub_lbuf by lia. cbn [bind seq map strncpy Nat.sub].
  destruct (strncpy_ok (lset (newbuf (o - 1)) (o - 2) (Some 0%Z)) 0 (map chr (seq (1 + 1) (o - 1 - 1)))) as (b & E & L & Pb).
  { rewrite map_length, seq_length. blen. }
  rewrite E. cbn [bind]. rewrite lset_length, newbuf_length in L.
  apply (cstr_long 9 b (o - 2)).
  - rewrite Pb. rewrite map_length, seq_length. cbn [Nat.leb andb]. natcases. rewrite lset_nth_error, newbuf_length. natcases; auto.
  - intros i Hi. rewrite Pb, map_length, seq_length. cbn [Nat.leb andb]. natcases.
    eexists; split; [reflexivity|]. intros Hi9. rewrite (nth_map_lt _ _ _ 0) by (rewrite seq_length; lia). rewrite nth_seq by lia.
    rewrite chr_small by lia. lia.
  - lia.
Qed.
Lemma strncpy_ub src : forall dst off, length dst < off + length src -> src <> [] -> strncpy dst off src = Err UB.
Proof.
  induction src as [|c src IH]; intros dst off H Hne; [contradiction|]. cbn [strncpy length] in *. unfold bset at 1.
  destruct (Nat.ltb_spec off (length dst)); cbn [bind]; auto.
  apply IH; [rewrite lset_length; lia|]. destruct src; [cbn in H; lia|discriminate].
Qed.

Section P.
Context {N : num}.
Lemma Build_ub fuel same (V : tensor N) W mp s : W <> [] -> 9 <= length s -> Build_mttkrp_map (S fuel) same V W mp s = Err UB.
Proof.
  intros HW Hl. cbn [Build_mttkrp_map]. rewrite (lget_ok W 0 tnil) by (destruct W; [contradiction|cbn; lia]). cbn [bind].
  destruct (Nat.eqb_spec (length s) 1); [lia|]. destruct (Nat.eqb_spec (length s) 0); [lia|].
  assert (Hf : length (firstn (length s - 1) s) = length s - 1) by (rewrite firstn_length; lia).
  destruct (Nat.eq_dec (length s) 9) as [E9|].
  - destruct (strncpy_ok (newbuf 8) 0 (firstn (length s - 1) s)) as (b & E & L & _). { rewrite newbuf_length. lia. }
    rewrite E. cbn [bind]. unfold bset at 1. rewrite L, newbuf_length. natcases; auto; try lia.
  - rewrite strncpy_ub; auto; [rewrite newbuf_length; lia|]. intros Ef. rewrite Ef in Hf. cbn in Hf. lia.
Qed.
Lemma Build_ub0 fuel same (V : tensor N) W mp : Build_mttkrp_map (S fuel) same V W mp [] = Err UB.
Proof.
  cbn [Build_mttkrp_map]. unfold lget. destruct (nth_error W 0); reflexivity.
Qed.
Theorem build_operators_big same (V : tensor N) W : 11 <= order V -> W <> [] -> build_operators same V W (lbuf (order V)) = Err UB.
Proof.
  intros Ho HW. unfold build_operators. rewrite for_first by lia. cbn [Nat.add].
  rewrite (for_first 1) by lia. destruct (first_pair_long (order V) Ho) as (s & E & Hs). rewrite E. cbn [bind].
  rewrite Nat.add_1_r. rewrite Build_ub by auto. reflexivity.
Qed.
Theorem build_operators_10 (RL : ring_laws N) same (V : tensor N) W R : factors_ok V W R -> order V = 10 ->
  build_operators same V W (lbuf 10) = Err UB.
Proof.
  intros HW Ho. unfold build_operators. rewrite Ho.
  destruct (build_pairs RL V R) with (same:=same) (W:=W) as (mp & E & _); auto; try lia.
  rewrite Ho in E. rewrite E. cbn [bind]. rewrite for_first by lia. rewrite except1_ok by lia. cbn [bind].
  change (10 + 1) with 11. rewrite Build_ub; auto. destruct HW as (_ & HL & _). destruct W; [cbn in HL; lia|discriminate].
Qed.
Theorem build_operators_small same (V : tensor N) W : order V = 1 \/ order V = 2 -> build_operators same V W (lbuf (order V)) = Err UB.
Proof.
  intros [Ho|Ho]; unfold build_operators; rewrite Ho.
  - cbn. unfold lget. destruct (nth_error W 0); reflexivity.
  - cbn. unfold lget. destruct (nth_error W 0); reflexivity.
Qed.
End P.
