(** Models of the programs: run.cxx (main), and the option parsing of test_ALS.cxx and pp_bench.cxx. *)
From Coq Require Import List ZArith QArith Bool Arith Lia String Ascii Permutation.
From Verif Require Import Base Num Tensor MCommon MCP MOpt MOptLR MCPD MGen.
Import ListNotations.
Local Close Scope Q_scope.
Local Open Scope string_scope.

(** run.cxx:15-21, test_ALS.cxx:14-20, pp_bench.cxx:14-20 getCmdOption: std::find over argv (argv[0] included), then
    the next token; None is the null pointer *)
Fixpoint getCmdOption (argv : list string) (option : string) : Datatypes.option string :=
  match argv with
  | [] => None
  | a :: rest => if String.eqb a option then hd_error rest else getCmdOption rest option
  end.

(** ** atoi: leading white space, a sign, decimal digits; strtol saturates at 64 bits and the result is
    converted to a 32-bit int (glibc; ISO C leaves values outside int undefined) *)
Definition is_space (c : ascii) : bool :=
  let n := nat_of_ascii c in Nat.eqb n 32 || (Nat.leb 9 n && Nat.leb n 13).
Definition digit (c : ascii) : option Z :=
  let n := nat_of_ascii c in if Nat.leb 48 n && Nat.leb n 57 then Some (Z.of_nat n - 48)%Z else None.
Fixpoint skip_space (s : string) : string :=
  match s with String c r => if is_space c then skip_space r else s | EmptyString => s end.
Fixpoint digits (s : string) (acc : Z) : Z :=
  match s with
  | String c r => match digit c with Some d => digits r (acc * 10 + d) | None => acc end
  | EmptyString => acc
  end%Z.
Definition strtol (s : string) : Z :=
  let v := match skip_space s with
           | String "-" r => - digits r 0
           | String "+" r => digits r 0
           | r => digits r 0
           end%Z in
  Z.max (- 2 ^ 63) (Z.min v (2 ^ 63 - 1)).
Definition to_int (z : Z) : Z := ((z + 2 ^ 31) mod 2 ^ 32 - 2 ^ 31)%Z.
Definition atoi (s : string) : Z := to_int (strtol s).
Definition char_at (s : string) (i : nat) : ascii := match String.get i s with Some c => c | None => "000"%char end.

Section M.
Context {N : num}.
(** atof: a C library function; NaN and infinities are values of N *)
Context (atof : string -> N).

Record settings := mkSettings {
  s_model : string; s_tensor : string; s_pp : Z; s_percentage : N; s_dim : Z; s_maxiter : Z; s_timelimit : N;
  s_size : Z; s_rank : Z; s_updaterank : Z; s_issparse : Z; s_resprint : Z; s_randomsvd : Z;
  s_tol : N; s_pp_res_tol : N; s_lambda : N; s_magni : N; s_filename : string; s_tensorfile : string;
  s_colmin : N; s_colmax : N; s_rationoise : N }.

(** an int option: if (getCmdOption(..)) { x = atoi(..); if (bad x) x = dflt; } else x = dflt; *)
Definition opt_int (argv : list string) (o : string) (bad : Z -> bool) (dflt : Z) : Z :=
  match getCmdOption argv o with
  | Some v => let x := atoi v in if bad x then dflt else x
  | None => dflt
  end.
Definition opt_dbl (argv : list string) (o : string) (bad : N -> bool) (dflt : N) : N :=
  match getCmdOption argv o with
  | Some v => let x := atof v in if bad x then dflt else x
  | None => dflt
  end.
Definition opt_str (argv : list string) (o : string) (bad : string -> bool) (dflt : string) : string :=
  match getCmdOption argv o with
  | Some v => if bad v then dflt else v
  | None => dflt
  end.
Definition neg (x : Z) : bool := (x <? 0)%Z.
Definition out01 (x : Z) : bool := (x <? 0)%Z || (1 <? x)%Z.
Definition dneg (x : N) : bool := nltb x (nlit 0).
Definition dout01 (x : N) : bool := nltb x (nlit 0) || nltb (nlit 1) x.
Definition bad_model (m : string) : bool :=
  negb (Ascii.eqb (char_at m 0) "C") && negb (Ascii.eqb (char_at m 0) "T").
Definition never {A} (_ : A) : bool := false.

(** run.cxx:66-217 *)
Definition run_settings (argv : list string) : settings :=
  let s := opt_int argv "-size" neg 10 in
  mkSettings (opt_str argv "-model" bad_model "CP") (opt_str argv "-tensor" never "p")
    (opt_int argv "-pp" neg 0) (opt_dbl argv "-update_percentage_pp" dout01 (nlit 1))
    (opt_int argv "-dim" neg 8) (opt_int argv "-maxiter" neg 5000) (opt_dbl argv "-timelimit" dneg (nlit 5000))
    s (opt_int argv "-rank" neg (Z.quot s 2)) (opt_int argv "-updaterank" neg (Z.quot s 2))
    (opt_int argv "-issparse" out01 0) (opt_int argv "-resprint" neg 10) (opt_int argv "-randomsvd" out01 0)
    (opt_dbl argv "-tol" dout01 (nlit (1 # 10000000000))) (opt_dbl argv "-pp_res_tol" dout01 (nlit (1 # 100)))
    (opt_dbl argv "-lambda" dneg (nlit 0)) (opt_dbl argv "-magni" dneg (nlit 1))
    (opt_str argv "-filename" never "out.csv") (opt_str argv "-tensorfile" never "test")
    (opt_dbl argv "-colmin" never (nlit (1 # 2))) (opt_dbl argv "-colmax" never (nlit (9 # 10)))
    (opt_dbl argv "-rationoise" dneg (nlit (1 # 100))).
(** test_ALS.cxx:64-197; it has no -updaterank and -randomsvd (the fields get 0 here) *)
Definition test_ALS_settings (argv : list string) : settings :=
  let s := opt_int argv "-size" neg 10 in
  mkSettings (opt_str argv "-model" bad_model "CP") (opt_str argv "-tensor" never "p")
    (opt_int argv "-pp" (fun x => (x <? 0)%Z || (2 <? x)%Z) 0) (opt_dbl argv "-update_percentage_pp" dout01 (nlit 1))
    (opt_int argv "-dim" neg 8) (opt_int argv "-maxiter" neg 5000) (opt_dbl argv "-timelimit" dneg (nlit 5000))
    s (opt_int argv "-rank" (fun R => (R <? 0)%Z || (s <? R)%Z) (Z.quot s 2)) 0
    (opt_int argv "-issparse" out01 0) (opt_int argv "-resprint" neg 10) 0
    (opt_dbl argv "-tol" dout01 (nlit (1 # 10000000000))) (opt_dbl argv "-pp_res_tol" dout01 (nlit (1 # 100)))
    (opt_dbl argv "-lambda" dneg (nlit 0)) (opt_dbl argv "-magni" dneg (nlit 1))
    (opt_str argv "-filename" never "out.csv") (opt_str argv "-tensorfile" never "test")
    (opt_dbl argv "-colmin" never (nlit (1 # 2))) (opt_dbl argv "-colmax" never (nlit (9 # 10)))
    (opt_dbl argv "-rationoise" dneg (nlit (1 # 100))).
(** pp_bench.cxx:57-177; it has no -updaterank, -randomsvd, -update_percentage_pp and -tensorfile *)
Definition pp_bench_settings (argv : list string) : settings :=
  let s := opt_int argv "-size" neg 10 in
  mkSettings (opt_str argv "-model" bad_model "CP") (opt_str argv "-tensor" never "p")
    (opt_int argv "-pp" out01 0) (nlit 1)
    (opt_int argv "-dim" neg 8) (opt_int argv "-maxiter" neg 5000) (opt_dbl argv "-timelimit" dneg (nlit 5000))
    s (opt_int argv "-rank" (fun R => (R <? 0)%Z || (s <? R)%Z) (Z.quot s 2)) 0
    (opt_int argv "-issparse" out01 0) (opt_int argv "-resprint" neg 10) 0
    (opt_dbl argv "-tol" dout01 (nlit (1 # 10000000000))) (opt_dbl argv "-pp_res_tol" dout01 (nlit (1 # 100)))
    (opt_dbl argv "-lambda" dneg (nlit 0)) (opt_dbl argv "-magni" dneg (nlit 1))
    (opt_str argv "-filename" never "out.csv") ""
    (opt_dbl argv "-colmin" never (nlit (1 # 2))) (opt_dbl argv "-colmax" never (nlit (9 # 10)))
    (opt_dbl argv "-rationoise" dneg (nlit (1 # 100))).

(** ** run.cxx main after the options *)
Local Open Scope num_scope.
(** what the environment supplies: fill_random ([rng k ls]: the k-th random tensor), the processes' reading order
    in fold_unfold ([dist]), the data files *)
Record environment := mkEnv {
  rng : nat -> list nat -> tensor N;
  dist : tensor N -> list (nat * N);
  file : string -> list nat -> tensor N }.
Context (LA : lapack N) (clk : nat -> N) (rank0 : bool) (env : environment).

Definition second_is (c : ascii) (t : string) : bool := Nat.ltb 1 (String.length t) && Ascii.eqb (char_at t 1) c.
(** int lens[dim]; for (i < dim) lens[i] = s; *)
Definition cube (dim s : nat) : list nat := repeat s dim.
(** run.cxx:279-298: the tensor 'c'.  [fuel] bounds the while loop of Gen_collinearity *)
Definition run_tensor_c (fuel : nat) (st : settings) (dim s R : nat) : res (tensor N) :=
  arg <- bset (newbuf (dim + 1)) dim 0%Z ;;
  arg <- for_ 0 dim (fun i b => c <- bget chars18 i ;; bset b i c) arg ;;
  V <- Gen_collinearity (fun k n => rng env k [n]) fuel (cube dim s) dim R (s_colmin st) (s_colmax st) ;;
  let V_noise := rng env 0 (cube dim s) in
  let noise_norm := norm2 V_noise in
  let V_norm := norm2 V in
  '(_, a) <- tix V arg ;;
  V_noise <- assign false V_noise a [mkTerm (s_rationoise st * V_norm / noise_norm) [(V_noise, a)]] ;;
  assign false V a [mkTerm n1 [(V, a)]; mkTerm n1 [(V_noise, a)]].
(** run.cxx:330-345, 348-364: int lens[dim]; lens[0..3] = ..; V = Tensor<>(dim, .., lens); V.read_dense_from_file *)
Definition run_tensor_file (f : string) (l : list nat) (dim : nat) : res (tensor N) :=
  b <- for_ 0 4 (fun i b => x <- lget l i ;; bset b i x) (newbuf dim) ;;
  ls <- take dim b ;;
  Ok (file env f ls).
(** run.cxx:241-366.  issparse only selects the storage format and is not modelled. *)
Definition run_tensor (fuel : nat) (st : settings) : res (tensor N) :=
  let t := s_tensor st in
  let dim := Z.to_nat (s_dim st) in
  let s := Z.to_nat (s_size st) in
  let R := Z.to_nat (s_rank st) in
  let t0 := char_at t 0 in
  if Ascii.eqb t0 "p" then
    if second_is "2" t then laplacian_tensor (zeros (cube dim s)) dim s
    else
      V0 <- laplacian_tensor (zeros (cube dim s)) dim s ;;
      fold_unfold (dist env V0) (zeros (repeat (s * s)%nat (dim / 2)))
  else if Ascii.eqb t0 "c" then run_tensor_c fuel st dim s R
  else if Ascii.eqb t0 "r" then
    if second_is "2" t then Ok (rng env 0 (cube dim s))
    else build_V (map (fun i => rng env i [s; R]) (seq 0 dim)) dim
  else if Ascii.eqb t0 "o" then
    if second_is "1" t then run_tensor_file "coil-100.bin" [3; 128; 128; 7200]%nat dim
    else if second_is "2" t then run_tensor_file "time-lapse.bin" [33; 1344; 1024; 9]%nat dim
    else Ok tnil
  else Ok tnil.

(** run.cxx:368-384 W, and grad_W as filled by CPD::Init (src/CP.cxx:76-80) *)
Definition run_W (base R : nat) (V : tensor N) : list (tensor N) :=
  map (fun i => rng env (base + i) [nth i (lens V) 0%nat; R]) (seq 0 (order V)).
(** run.cxx:390-417 which decomposition class *)
Definition run_method (st : settings) : option cpd_method :=
  let k := Z.to_nat (s_updaterank st) in
  let rs := (0 <? s_randomsvd st)%Z in
  match s_pp st with
  | 0%Z => Some TwoSubtree
  | 1%Z => Some MultiSweep
  | 2%Z => Some (TwoSubtreeLR k rs)
  | 3%Z => Some (MultiSweepLR k rs)
  | 4%Z => Some Simple
  | _ => None
  end.
(** run.cxx:241-417.  None: no decomposition was computed.  [base], [base']: where the random stream stands when W
    and grad_W are filled; wf bounds the loop of als, x the clock *)
Definition run_main (fuel base base' wf : nat) (st : settings) (x : io (N := N))
  : res (option (bool * (list (tensor N) * list (tensor N)) * N * list (crow N))) :=
  let dim := Z.to_nat (s_dim st) in
  let s := Z.to_nat (s_size st) in
  let R := Z.to_nat (s_rank st) in
  V <- run_tensor fuel st ;;
  let W := run_W base R V in
  let G := run_W base' R V in
  if Ascii.eqb (char_at (s_model st) 0) "C" then
    match run_method st with
    | Some m =>
      r <- cpd_run LA clk rank0 m wf dim s R V W G n0 (s_tol st * norm2 V) (s_timelimit st) (s_maxiter st)
                   (s_resprint st) false x ;;
      Ok (Some r)
    | None => Ok None
    end
  else Ok None.
Definition run (fuel base base' wf : nat) (argv : list string) (x : io (N := N)) :=
  run_main fuel base base' wf (run_settings argv) x.
End M.
