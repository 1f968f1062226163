(** C79: over IEEE binary64, a sweep that loses finiteness never regains it, and no test notices *)
From Coq Require Import List ZArith QArith Lia Bool Arith SpecFloat.
From Verif Require Import Base Num NumF Tensor Spec Spec23 MCommon MCP PBase PTensor PNan PNan2 PNan3.
Import ListNotations.
Local Close Scope Q_scope.

Section C79.
Context (root : nat -> spec_float -> spec_float) (Hroot : pow_contract root).
Notation N := (F64 root).

Lemma f64_lossy : lossy (N := N) nonfinite zero_or_nan.
Proof.
  split.
  - split; intros [[]|[]| |[]] [[]|[]| |[]]; cbn; auto; contradiction.
  - split; [exact I| | |]; intros [[]|[]| |[]] [[]|[]| |[]]; cbn; auto; contradiction.
  - intros [[]|[]| |[]] [[]|[]| |[]]; cbn; auto; contradiction.
  - intros [[]|[]| |[]]; cbn; auto; contradiction.
  - intros n x Hn H. apply Hroot; auto.
  - intros [[]|[]| |[]] [[]|[]| |[]]; cbn; auto; contradiction.
  - intros [[]|[]| |[]] [[]|[]| |[]]; cbn; auto; contradiction.
  - intros [[]|[]| |[]]; cbn; auto; contradiction.
  - intros n x Hn H. apply Hroot; auto.
  - intros [[]|[]| |[]]; cbn; auto; contradiction.
  - intros [[]|[]| |[]] [[]|[]| |[]]; cbn; auto; contradiction.
Qed.

Lemma zero_zn (T : tensor N) : all_zero T -> allT (N:=N) zero_or_nan T.
Proof. intros H x Hx. destruct (H x Hx) as (b & ->). exact I. Qed.

(** one infinite or NaN entry anywhere: after the normalisation no entry of any factor is finite *)
Theorem C79_normalize_spreads : forall (W W' : list (tensor N)) n i T x, Normalize W n = Ok W' -> i < n -> nth_error W i = Some T -> In x (data T) -> nonfinite x ->
  forall k Tk, k < n -> nth_error W' k = Some Tk -> lost Tk.
Proof. intros W W' n i T x E Hi HT Hx Hb k Tk Hk HTk. apply (Normalize_lost _ _ f64_lossy W n W' ltac:(lia) E) with (i := k); auto. exists i, T, x. auto. Qed.
(** a zero factor: it becomes NaN, and every other factor zero or NaN *)
Theorem C79_normalize_zero : forall (W W' : list (tensor N)) n i T, Normalize W n = Ok W' -> i < n -> nth_error W i = Some T -> all_zero T ->
  (forall T', nth_error W' i = Some T' -> lost T') /\
  (forall k Tk, k < n -> nth_error W' k = Some Tk -> forall x, In x (data Tk) -> zero_or_nan x).
Proof.
  intros W W' n i T E Hi HT Hz. apply zero_zn in Hz. pose proof E as E'. apply Normalize_each in E' as (? & _ & Hlen & _ & Hn). split.
  - intros T' HT'. apply (proj2 (Normalize_zero _ _ f64_lossy W n W' ltac:(lia) E i T Hi HT Hz i T T' Hi HT HT')). auto.
  - intros k Tk Hk HTk. destruct (Hn k Hk) as (A & A' & E1 & _ & _). apply (proj1 (Normalize_zero _ _ f64_lossy W n W' ltac:(lia) E i T Hi HT Hz k A Tk Hk E1 HTk)).
Qed.
(** a decomposition that reports a zero singular value: the solution has no finite entry *)
Theorem C79_singular_solve : forall (LA : lapack N) (M W S W' : tensor N), wf S -> order S = 2 -> (forall n, In n (lens S) -> 0 < n) ->
  reports_singular (svd LA) S (ncol S) -> SVD_solve LA M W S = Ok W' -> lost W'.
Proof.
  intros LA M W S W' H1 H2 H3 Hs E. unfold reports_singular in Hs. destruct (svd LA S (ncol S)) as [[U s] VT] eqn:Es. destruct Hs as (K1 & K2 & j & b & K3 & K4).
  apply (solve_sing LA _ _ f64_lossy M W S W' U s VT j E (conj H1 (conj H2 H3)) Es K1 K2 K3). rewrite K4. exact I.
Qed.
(** factors without finite entries stay so through a sweep, which writes gradients without finite entries *)
Theorem C79_sweep : forall (LA : lapack N) fuel parent sibling (V : tensor N) F regul W G Sm sq W' G' Sm' sq',
  1 <= order V <= 31 -> (forall n, In n (lens V) -> 0 < n) -> length W = order V -> proper W -> (forall T, In T W -> lost T) ->
  alsCP_DT_sweep LA fuel parent sibling V F regul W G Sm sq = Ok (W', G', Sm', sq') ->
  (forall T, In T W' -> lost T) /\ (forall k, k < order V -> exists g, nth_error G' k = Some g /\ data g <> [] /\ lost g).
Proof.
  intros LA fuel pa si V F rg W G Sm sq W' G' Sm' sq' Ho HV Hl HW HB E. destruct (sweep_lost LA _ _ f64_lossy _ _ _ _ _ _ _ _ _ _ _ _ _ _ Ho HV Hl E HW HB) as (_ & K2 & _ & K4). split; [exact K2|].
  intros k Hk. destruct (K4 k Hk) as (g & E1 & E2 & E3). exists g. split; [auto|]. split; [|exact E3]. destruct (okm_in g E2) as (x & Hx). intros Ed. rewrite Ed in Hx. destruct Hx.
Qed.
(** a sweep whose decomposition of the system of some mode reports a zero singular value leaves no finite entry in any factor *)
Theorem C79_singular_sweep : forall (LA : lapack N) fuel parent sibling (V : tensor N) F regul W G Sm sq W' G' Sm' sq' n W1 G1 S1 mp1 s1,
  n < order V -> length W = order V -> proper W -> proper [Sm] ->
  for_ 0 (S n) (alsCP_DT_mode LA fuel parent sibling V F regul) (W, G, Sm, sempty, sq) = Ok (W1, G1, S1, mp1, s1) ->
  reports_singular (svd LA) S1 (ncol S1) ->
  alsCP_DT_sweep LA fuel parent sibling V F regul W G Sm sq = Ok (W', G', Sm', sq') -> forall T, In T W' -> lost T.
Proof.
  intros LA fuel pa si V F rg W G Sm sq W' G' Sm' sq' n W1 G1 S1 mp1 s1 Hn Hl HW HS E1 Hs E. unfold reports_singular in Hs. destruct (svd LA S1 (ncol S1)) as [[U s] VT] eqn:Es. destruct Hs as (K1 & K2 & j & b & K3 & K4).
  apply (fun P1 => sweep_sing LA _ _ f64_lossy fuel pa si V F rg n W G Sm sq W1 G1 S1 mp1 s1 W' G' Sm' sq' Hn Hl HW (HS Sm (or_introl eq_refl)) E1 E P1). exists U, s, VT, j. rewrite K4. repeat split; auto.
Qed.
(** a run that starts without finite entries: it ends with none, and only the time limit can end it early *)
Theorem C79_run : forall (LA : lapack N) clk rank0 fuel (V : tensor N) W G F tol limit maxiter lambda resprint bench x ret st,
  1 <= order V <= 31 -> (forall n, In n (lens V) -> 0 < n) -> length W = order V -> proper W -> (forall T, In T W -> lost T) ->
  length G = order V -> proper G -> (forall T, In T G -> lost T) -> (0 <= maxiter)%Z ->
  alsCP_DT LA clk rank0 fuel V W G F tol limit maxiter lambda resprint bench x = Ok (ret, st) ->
  (forall T, In T (dtW st) -> lost T) /\ (ret = true -> exists n s, nltb limit (nsub (clk n) s) = true).
Proof.
  intros LA clk rank0 fuel V W G F tol limit maxiter lambda resprint bench x ret st Ho HV Hl HW HB HGl HG HGB Hm E.
  assert (HG' : lostG (N:=N) nonfinite (order V) G).
  { intros k Hk. destruct (nth_error G k) as [g|] eqn:Eg; [|apply nth_error_None in Eg; lia]. apply nth_error_In in Eg. exists g. split; auto. split; [apply HG; auto|apply HGB; auto]. }
  destruct (run_lost LA _ _ f64_lossy fuel V F clk rank0 tol limit maxiter resprint bench W G lambda x ret st Ho HV Hl HW HB HG' Hm E) as (_ & K2 & _ & K4). split; [exact K2|exact K4].
Qed.
(** a zero tensor: unless the run stops at its very first check, it ends without a finite entry; and only the time limit can end it early *)
Theorem C79_zero_tensor_run : forall (LA : lapack N) clk rank0 fuel (V : tensor N) W G F tol limit maxiter lambda resprint bench x ret st,
  1 <= order V <= 31 -> (forall n, In n (lens V) -> 0 < n) -> all_zero V -> (forall T, In T F -> all_zero T) ->
  length W = order V -> proper W -> (0 <= maxiter)%Z ->
  alsCP_DT LA clk rank0 fuel V W G F tol limit maxiter lambda resprint bench x = Ok (ret, st) ->
  (ret = false -> forall T, In T (dtW st) -> lost T) /\
  ((2 <= maxiter)%Z -> (2 <= resprint)%Z -> length G = order V -> nltb (measured G) tol = false ->
   ret = true -> exists n s, nltb limit (nsub (clk n) s) = true).
Proof.
  intros LA clk rank0 fuel V W G F tol limit maxiter lambda resprint bench x ret st Ho HV HZ HF Hl HW Hm E.
  destruct (run_zero LA _ _ f64_lossy fuel V F clk rank0 tol limit maxiter resprint bench W G lambda x ret st Ho HV (zero_zn _ HZ) (fun T HT => zero_zn T (HF T HT)) Hl HW Hm E) as [K1 K2].
  split; [exact K1|]. intros H1 H2 HG Ht. apply K2; auto. exists (measured G). split; auto.
  unfold sumnorm, for_. rewrite Nat.sub_0_r, <- HG. clear. enough (K : forall (L G : list (tensor N)) (a : N), loop (length G) (length L) (fun i p => g <- lget (L ++ G) i;; Ok (nadd p (nmul (norm2 g) (norm2 g)))) a = Ok (fold_left (fun a g => nadd a (nmul (norm2 g) (norm2 g))) G a)).
  { pose proof (K [] G n0) as K0. cbn [app length] in K0. rewrite K0. reflexivity. }
  clear G. intros L G. revert L. induction G as [|g G IH]; intros L a; [reflexivity|]. cbn [length loop fold_left]. unfold lget at 1. rewrite nth_error_app2, Nat.sub_diag by lia. cbn [nth_error of_opt bind].
  specialize (IH (L ++ [g]) (nadd (n:=N) a (nmul (norm2 g) (norm2 g)))). rewrite app_length, Nat.add_1_r in IH. rewrite <- IH. apply loop_ext. intros j t Hj. rewrite <- app_assoc. reflexivity.
Qed.
End C79.

(** the hypotheses are met: three sweeps over a zero 2x2x2x2 tensor at rank 1, started from ones, never end early and return NaN everywhere *)
Definition cn_rt (n : nat) (x : spec_float) : spec_float := match x with S754_finite _ _ _ => SFone 53 1024 | _ => x end.
Definition cn_N := F64 cn_rt.
Definition cn_one : cn_N := SFone 53 1024.
Definition cn_fl (z : Z) : cn_N := binary_normalize 53 1024 z 0 false.
Definition cn_mat (a b : nat) (l : list Z) : tensor cn_N := @mkT cn_N [a; b] (map cn_fl l).
Definition cn_LA : lapack cn_N := @mkLapack cn_N (fun A k => (cn_mat 1 1 [1%Z], @mkT cn_N [1] [cn_one], cn_mat 1 1 [1%Z])) (fun A => A) (fun A _ _ _ _ => A) (fun A => A) (fun _ l => zeros l).
Definition cn_V : tensor cn_N := zeros [2; 2; 2; 2].
Definition cn_W : list (tensor cn_N) := [cn_mat 2 1 [1; 2]; cn_mat 2 1 [1; 3]; cn_mat 2 1 [3; 1]; cn_mat 2 1 [1; 1]]%Z.
Definition cn_G : list (tensor cn_N) := [cn_mat 2 1 [1; 1]; cn_mat 2 1 [1; 1]; cn_mat 2 1 [1; 1]; cn_mat 2 1 [1; 1]]%Z.
Definition cn_F : list (tensor cn_N) := [zeros [2; 1]; zeros [2; 1]; zeros [2; 1]; zeros [2; 1]].
Definition cn_clk (n : nat) : cn_N := cn_fl (Z.of_nat n).
Definition cn_run := alsCP_DT cn_LA cn_clk true 10 cn_V cn_W cn_G cn_F (cn_fl 0) (cn_fl 1000) 2 (cn_fl 0) 2 false (mkIo 0 (cn_fl 0) []).
Definition cn_out (r : res (bool * @dt_state cn_N)) : option (bool * list (list cn_N) * nat) := match r with Ok (b, st) => Some (b, map data (dtW st), length (rows (dtio st))) | Err _ => None end.
Lemma cn_out_eq : cn_out cn_run = Some (false, [[S754_nan; S754_nan]; [S754_nan; S754_nan]; [S754_nan; S754_nan]; [S754_nan; S754_nan]], 2).
Proof. vm_compute. reflexivity. Qed.
Lemma cn_out_inv r l n : cn_out r = Some (false, l, n) -> exists st, r = Ok (false, st) /\ map data (dtW st) = l /\ length (rows (dtio st)) = n.
Proof. destruct r as [[b st]|]; cbn; intros E; [|discriminate]. injection E as -> E1 E2. exists st. auto. Qed.
Theorem C79_case : exists st, cn_run = Ok (false, st) /\ map data (dtW st) = [[S754_nan; S754_nan]; [S754_nan; S754_nan]; [S754_nan; S754_nan]; [S754_nan; S754_nan]] /\
  pow_contract cn_rt /\ all_zero (root:=cn_rt) cn_V /\ proper (root:=cn_rt) cn_W /\ (forall T, In T cn_F -> all_zero (root:=cn_rt) T) /\ nltb (measured (root:=cn_rt) cn_G) (cn_fl 0) = false /\
  length (rows (dtio st)) = 2.
Proof.
  destruct (cn_out_inv _ _ _ cn_out_eq) as (st & E0 & E1 & E2). exists st. split; [exact E0|]. split; [exact E1|]. split.
  { intros n [[]|[]| |[]] _; cbn; auto. }
  split; [intros x Hx; cbn in Hx; repeat destruct Hx as [<-|Hx]; eauto; destruct Hx|].
  split; [intros T HT; cbn in HT; repeat destruct HT as [<-|HT]; try destruct HT; (split; [reflexivity|]; split; [reflexivity|]; cbn; intros n Hn; repeat destruct Hn as [<-|Hn]; try lia; destruct Hn)|].
  split; [intros T HT x Hx; cbn in HT; repeat destruct HT as [<-|HT]; try destruct HT; cbn in Hx; repeat destruct Hx as [<-|Hx]; eauto; destruct Hx|].
  split; [vm_compute; reflexivity|exact E2].
Qed.
(** a singular system: the decomposition of [[1;1];[1;1]] reports the singular values 2 and 0 *)
Definition cn_LA0 : lapack cn_N := @mkLapack cn_N (fun A k => (cn_mat 2 2 [1; 1; 1; -1]%Z, @mkT cn_N [2] [cn_fl 2; cn_fl 0], cn_mat 2 2 [1; 1; 1; -1]%Z)) (fun A => A) (fun A _ _ _ _ => A) (fun A => A) (fun _ l => zeros l).
Theorem C79_singular_case : reports_singular (root:=cn_rt) (svd cn_LA0) (cn_mat 2 2 [1; 1; 1; 1]%Z) 2 /\
  exists W', SVD_solve cn_LA0 (cn_mat 1 2 [1; 1]%Z) (cn_mat 1 2 [0; 0]%Z) (cn_mat 2 2 [1; 1; 1; 1]%Z) = Ok W' /\ data W' = [S754_nan; S754_nan].
Proof.
  split; [split; [reflexivity|]; split; [reflexivity|]; exists 1, false; split; [lia|reflexivity]|]. 
  assert (E : match SVD_solve cn_LA0 (cn_mat 1 2 [1; 1]%Z) (cn_mat 1 2 [0; 0]%Z) (cn_mat 2 2 [1; 1; 1; 1]%Z) with Ok T => Some (data T) | Err _ => None end = Some [S754_nan; S754_nan]) by (vm_compute; reflexivity).
  destruct (SVD_solve cn_LA0 _ _ _) as [T|]; [|discriminate]. injection E as E. exists T. auto.
Qed.
