(** No operation other than the loop of als itself runs out of the loop's fuel; for every number type *)
From Coq Require Import List ZArith QArith Qround Lia Bool Arith.
From Verif Require Import Base Num Tensor Spec4 MCommon MCP MOpt MOptLR MCPD PCPD.
Import ListNotations.
Local Close Scope Q_scope.

Definition nolf {A} (r : res A) : Prop := r <> Err LoopFuel.
Lemma nolf_ok {A} (a : A) : nolf (Ok a). Proof. discriminate. Qed.
Lemma nolf_err {A} e : e <> LoopFuel -> nolf (@Err A e). Proof. intros H E. congruence. Qed.
Lemma nolf_bind {A B} (r : res A) (f : A -> res B) : nolf r -> (forall a, nolf (f a)) -> nolf (bind r f).
Proof. intros H1 H2. destruct r; cbn [bind]; [apply H2|intros E; apply H1; congruence]. Qed.
Lemma nolf_loop {S} n : forall i (body : nat -> S -> res S) s, (forall i s, nolf (body i s)) -> nolf (loop n i body s).
Proof. induction n as [|n IH]; intros i body s H; cbn [loop]; [apply nolf_ok|]. apply nolf_bind; [apply H|intros a; apply IH, H]. Qed.
Lemma nolf_for {S} lo hi (body : nat -> S -> res S) s : (forall i s, nolf (body i s)) -> nolf (for_ lo hi body s).
Proof. apply nolf_loop. Qed.
Lemma nolf_of_opt {A} e (x : option A) : e <> LoopFuel -> nolf (of_opt e x).
Proof. intros H. destruct x; [apply nolf_ok|apply nolf_err, H]. Qed.
Lemma nolf_lget {A} (l : list A) i : nolf (lget l i). Proof. apply nolf_of_opt. discriminate. Qed.
Lemma nolf_bget {A} (l : buf A) i : nolf (bget l i). Proof. unfold bget. destruct (nth_error l i) as [[|]|]; discriminate. Qed.
Lemma nolf_bset {A} (l : buf A) i a : nolf (bset l i a). Proof. unfold bset. destruct (i <? length l); discriminate. Qed.
Lemma nolf_lput {A} (l : list A) i a : nolf (lput l i a). Proof. unfold lput. destruct (i <? length l); discriminate. Qed.
Lemma nolf_take {A} n : forall (b : buf A), nolf (take n b).
Proof. induction n as [|n IH]; intros b; cbn [take]; [discriminate|]. destruct b as [|[a|] b]; try discriminate. apply nolf_bind; [apply IH|discriminate]. Qed.
Lemma nolf_cstr : forall b, nolf (cstr b).
Proof. induction b as [|[c|] b IH]; cbn [cstr]; try discriminate. destruct (Z.eqb c 0); [discriminate|]. apply nolf_bind; [apply IH|discriminate]. Qed.
Lemma nolf_strncpy : forall src dst off, nolf (strncpy dst off src).
Proof. induction src as [|c s IH]; intros d off; cbn [strncpy]; [discriminate|]. apply nolf_bind; [apply nolf_bset|intros a; apply IH]. Qed.
Lemma nolf_ix c : nolf (ix c). Proof. unfold ix. destruct (_ <? 0)%Z; discriminate. Qed.
Lemma nolf_str_at s i : nolf (str_at s i). Proof. unfold str_at. destruct (_ <? _); [apply nolf_lget|]. destruct (Nat.eqb _ _); discriminate. Qed.
Lemma nolf_zmod a b : nolf (zmod a b). Proof. unfold zmod. destruct (Z.eqb b 0); discriminate. Qed.
Lemma nolf_assign {N : num} acc (C : tensor N) s ts : nolf (assign acc C s ts).
Proof. unfold assign. destruct (_ && _); discriminate. Qed.
#[export] Hint Resolve nolf_ok nolf_lget nolf_bget nolf_bset nolf_lput nolf_take nolf_cstr nolf_strncpy nolf_ix nolf_str_at nolf_zmod nolf_assign : nolf.
Ltac nolf1 := match goal with
  | |- nolf (Ok _) => apply nolf_ok
  | |- nolf (Err _) => apply nolf_err; discriminate
  | |- nolf (bind _ _) => apply nolf_bind; [|intros ?]
  | |- nolf (for_ _ _ _ _) => apply nolf_for; intros ? ?
  | |- nolf (of_opt _ _) => apply nolf_of_opt; discriminate
  | |- nolf (let '(_, _) := ?x in _) => destruct x
  | |- nolf (if ?x then _ else _) => destruct x
  | |- nolf (match ?x with Some _ => _ | None => _ end) => destruct x
  | |- nolf _ => solve [auto with nolf]
  end.
Ltac nolf := cbv zeta; repeat (nolf1; cbv zeta).

Section P.
Context {N : num} (LA : lapack N).
Lemma nolf_tixs : forall (fs : list (tensor N * buf Z)), nolf (tixs fs).
Proof. induction fs as [|[T b] fs IH]; cbn [tixs]; [discriminate|]. unfold tix. nolf. Qed.
Lemma nolf_assign_b (C : tensor N) b fs : nolf (assign_b C b fs). Proof. unfold assign_b. nolf. apply nolf_tixs. Qed.
Lemma nolf_new_tensor n b : nolf (@new_tensor N n b). Proof. unfold new_tensor. nolf. Qed.
Hint Resolve nolf_assign_b nolf_new_tensor : nolf.
Lemma nolf_build_V (W : list (tensor N)) o : nolf (build_V W o).
Proof. unfold build_V, build_V_step. nolf. Qed.
Lemma nolf_vec2str v : nolf (vec2str v). Proof. unfold vec2str. nolf. Qed.
Hint Resolve nolf_build_V nolf_vec2str : nolf.
Lemma nolf_cpd_seqV o : nolf (cpd_seqV o). Proof. unfold cpd_seqV. nolf. Qed.
Lemma nolf_opt_seqV o : nolf (opt_seqV o). Proof. unfold opt_seqV. nolf. Qed.
Lemma nolf_opt_tree_top o : nolf (opt_tree_top o). Proof. unfold opt_tree_top. nolf. Qed.
Lemma nolf_Right_Subtree f : forall t top, nolf (Right_Subtree f t top).
Proof. induction f as [|f IH]; intros t top; cbn [Right_Subtree]; [discriminate|]. nolf. Qed.
Hint Resolve nolf_Right_Subtree : nolf.
Lemma nolf_Construct_Subtree f : forall t top, nolf (Construct_Subtree f t top).
Proof. induction f as [|f IH]; intros t top; cbn [Construct_Subtree]; [discriminate|]. nolf. Qed.
Lemma nolf_opt_tree o : nolf (opt_tree o). Proof. apply nolf_Construct_Subtree. Qed.
Lemma nolf_update_indexes o ixs l : nolf (update_indexes o ixs l). Proof. unfold update_indexes. nolf. Qed.
Hint Resolve nolf_cpd_seqV nolf_opt_seqV nolf_opt_tree_top nolf_opt_tree nolf_update_indexes : nolf.
Lemma nolf_dt_new o (st : opt_st N) : nolf (dt_new o st). Proof. unfold dt_new. nolf. Qed.
Lemma nolf_ms_new o (st : opt_st N) : nolf (ms_new o st). Proof. unfold ms_new. nolf. Qed.
Hint Resolve nolf_dt_new nolf_ms_new : nolf.
Lemma nolf_dl_new o (st : opt_st N) : nolf (dl_new o st). Proof. unfold dl_new. nolf. Qed.
Lemma nolf_ml_new o (st : opt_st N) : nolf (ml_new o st). Proof. unfold ml_new. nolf. Qed.
Lemma nolf_mk_regul R (l : N) : nolf (mk_regul R l). Proof. unfold mk_regul. nolf. Qed.
Lemma nolf_gram_index (Sm : tensor N) W o i : nolf (gram_index Sm W o i). Proof. unfold gram_index. nolf. Qed.
Hint Resolve nolf_dl_new nolf_ml_new nolf_mk_regul nolf_gram_index : nolf.
Lemma nolf_update_S o r (W : list (tensor N)) Sm n : nolf (update_S o r W Sm n). Proof. unfold update_S. nolf. Qed.
Lemma nolf_gradsubprob (M Sm W G : tensor N) : nolf (gradsubprob M Sm W G). Proof. unfold gradsubprob. nolf. Qed.
Lemma nolf_cholesky_solve (M Sm : tensor N) : nolf (cholesky_solve LA M Sm). Proof. unfold cholesky_solve. nolf. Qed.
Hint Resolve nolf_update_S nolf_gradsubprob nolf_cholesky_solve : nolf.
Lemma nolf_opt_update o r (M : tensor N) n st : nolf (opt_update LA o r M n st). Proof. unfold opt_update. nolf. Qed.
Lemma nolf_rankR k (M A Sm : tensor N) s : nolf (get_rankR_update_cholesky LA k M A Sm s).
Proof. unfold get_rankR_update_cholesky, matrixDot, randomized_svd. nolf. Qed.
Lemma nolf_swap_char s i j : nolf (swap_char s i j). Proof. unfold swap_char. nolf. Qed.
Lemma nolf_make_index o s (rows : nat -> res nat) c : (forall m, nolf (rows m)) -> nolf (make_index o s rows c).
Proof. intros H. unfold make_index. nolf. Qed.
Lemma nolf_KR (M V : tensor N) W i l : nolf (KhatriRao_contract M V W i l). Proof. unfold KhatriRao_contract. nolf. Qed.
Hint Resolve nolf_opt_update nolf_rankR nolf_swap_char nolf_KR : nolf.
Lemma nolf_lr_update k rs acc o r (M : tensor N) n ref st lo : nolf (lr_update LA k rs acc o r M n ref st lo).
Proof. unfold lr_update. nolf. Qed.
Lemma nolf_map_init_seq o l : nolf (map_init_seq o l). Proof. unfold map_init_seq. nolf. Qed.
Lemma nolf_node_lens (V : tensor N) W f s : (forall p, nolf (f p)) -> nolf (node_lens V W f s).
Proof. intros H. unfold node_lens. nolf. Qed.
Hint Resolve nolf_lr_update nolf_map_init_seq : nolf.
Hint Resolve nolf_node_lens : nolf.
Lemma nolf_fresh_top (V : tensor N) W s l : nolf (fresh_top V W s l).
Proof. unfold fresh_top. nolf. Qed.
Lemma nolf_opt_map_DT f (V : tensor N) W t ixs : forall mp i, nolf (opt_map_DT f V W t ixs mp i).
Proof. induction f as [|f IH]; intros mp i; cbn [opt_map_DT]; [discriminate|]. nolf. Qed.
Hint Resolve nolf_fresh_top nolf_opt_map_DT : nolf.
Lemma nolf_leaf_M f (V : tensor N) W t ixs mp i : nolf (leaf_M f V W t ixs mp i). Proof. unfold leaf_M. nolf. Qed.
Hint Resolve nolf_leaf_M : nolf.
Lemma nolf_dt_step f (V : tensor N) r s : nolf (dt_step LA f V r s). Proof. unfold dt_step, tree_mode. nolf. Qed.
Lemma nolf_ms_step f (V : tensor N) r s : nolf (ms_step LA f V r s). Proof. unfold ms_step, tree_mode. nolf. Qed.
Lemma nolf_simple_step (V : tensor N) r s : nolf (simple_step LA V r s).
Proof. unfold simple_step, simple_mode. nolf. apply nolf_make_index. intros m. nolf. Qed.
Lemma nolf_dl_step f k rs (V : tensor N) r s : nolf (dl_step LA f k rs V r s).
Proof. unfold dl_step, dl_map_init, dl_update_cached, dl_mode. nolf. Qed.
Lemma nolf_ml_step f k rs (V : tensor N) r s : nolf (ml_step LA f k rs V r s).
Proof. unfold ml_step, ml_map_init, ml_update_cached, ml_mode. nolf. Qed.
Lemma nolf_cpd_init o size r (V : tensor N) W : nolf (cpd_init o size r V W).
Proof. unfold cpd_init, cpd_assert. nolf. Qed.

(** ** the loop of als: at most as many rounds as steps needed to exceed maxsweep *)
Section L.
Context (clk : nat -> N) (rank0 : bool) {St : Type} (step : St -> res (Q * St)) (base : St -> opt_st N) (q : Q).
Hypothesis Hstep : forall s, nolf (step s).
Hypothesis Hq : forall s p s', step s = Ok (p, s') -> p = q.
Lemma nolf_cpd_check (V : tensor N) sq tol tl bench it sw (c : cpd N St) : nolf (cpd_check clk rank0 base V sq tol tl bench it sw c).
Proof. unfold cpd_check, measure, check_begin, check_end, stop_test, wtime, sumnorm, diffnorm. nolf. Qed.
Lemma cpd_loop_nolf (V : tensor N) sq tol tl ms rp bench : forall fuel k it (c : cpd N St),
  (ms < Qfloor (sweeps_after q (k + fuel)))%Z -> nolf (cpd_loop clk rank0 step base fuel V sq tol tl ms rp bench it (sweeps_after q k) c).
Proof.
  induction fuel as [|fuel IH]; intros k it c H; cbn [cpd_loop].
  - rewrite Nat.add_0_r in H. destruct (Z.leb_spec (Qfloor (sweeps_after q k)) ms); [lia|apply nolf_ok].
  - destruct (_ <=? _)%Z; [|apply nolf_ok]. apply nolf_bind; [apply nolf_zmod|intros m]. apply nolf_bind; [destruct (_ || _); [apply nolf_cpd_check|apply nolf_ok]|intros [stop c']].
    destruct stop; [apply nolf_ok|]. destruct (step (c_st c')) as [[p s']|e] eqn:Es; cbn [bind].
    + rewrite (Hq _ _ _ Es). change (F64.rnd64 (sweeps_after q k + F64.rnd64 q)) with (sweeps_after q (S k)). apply IH. replace (S k + fuel) with (k + S fuel) by lia. exact H.
    + intros E. apply (Hstep (c_st c')). congruence.
Qed.
Lemma cpd_als_nolf fuel (V : tensor N) tol tl ms rp bench s gn x : (ms < Qfloor (sweeps_after q fuel))%Z ->
  nolf (cpd_als clk rank0 step base fuel V tol tl ms rp bench s gn x).
Proof.
  intros H. unfold cpd_als, wtime. apply nolf_bind; [apply nolf_cpd_seqV|intros sq]. cbv zeta. apply nolf_bind; [|intros [[? ?] ?]; apply nolf_ok].
  apply (cpd_loop_nolf V sq tol tl ms rp bench fuel 0). exact H.
Qed.
End L.
End P.
