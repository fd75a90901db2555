(** Model of the optimisation history file: FunctionEvaluation::output, _output_wrapper,
    set_output_file, initialize_dv_from_output_file and parametric_line_study
    (/repo/src/optimization/function_evaluation.{h,cpp}). *)
From Coq Require Import String Ascii List Arith Lia Bool Reals DecimalString DecimalNat Decimal.
From Verif Require Import Base.
Import ListNotations.
Open Scope string_scope.
Open Scope nat_scope.

(** [n] blanks, the default fill of std::setw. *)
Fixpoint spaces (n : nat) : string :=
  match n with O => "" | S k => String " " (spaces k) end.

(** function_evaluation.cpp L134-159: [<< std::setw(w) << s] pads on the left to at least [w]
    characters and never truncates. *)
Definition setw (w : nat) (s : string) : string := spaces (w - String.length s) ++ s.

(** several insertions on one line *)
Fixpoint join (l : list string) : string :=
  match l with [] => "" | s :: r => s ++ join r end.

(** [<< unsigned int], decimal digits. *)
Definition dec (n : nat) : string := NilZero.string_of_uint (Nat.to_uint n).

(** function_evaluation.cpp L189, L231: stod / stoi of a digit string.  Simplification: only
    digit strings are accepted (the C++ also accepts trailing garbage, and throws otherwise). *)
Definition parse_nat (s : string) : option nat :=
  option_map Nat.of_uint (NilZero.uint_of_string s).

(** How the C++ stream library prints and reads a Real: external, hence a parameter.  The
    stream is opened by set_output_file (function_evaluation.h L125-132), which leaves the default
    precision of six significant digits. *)
Record numfmt : Type := mkNumfmt { fmt : R -> string; parse : string -> option R }.

(** The members of FunctionEvaluation used here; [h_open] is [_output != nullptr], [h_file] the
    complete lines of the file it is attached to, [h_log] the design, objective and constraint
    values shown on libMesh::out (function_evaluation.cpp L55-120). *)
Record hist : Type := mkHist {
  h_nvars : nat; h_neq : nat; h_nineq : nat;
  h_iter : nat;
  h_open : bool;
  h_file : list string;
  h_log : list (nat * list R * R * list R)
}.

(** function_evaluation.h L125-132: opening truncates the file; [_iter] is left alone. *)
Definition set_output_file (h : hist) : hist :=
  mkHist (h_nvars h) (h_neq h) (h_nineq h) (h_iter h) true [] (h_log h).

(** function_evaluation.cpp L132-151: the four header lines. *)
Definition header (h : hist) (nx nf : nat) : list string :=
  [ setw 10 "n_dv" ++ setw 10 (dec (h_nvars h));
    setw 10 "n_eq" ++ setw 10 (dec (h_neq h));
    setw 10 "n_ineq" ++ setw 10 (dec (h_nineq h));
    setw 10 "Iter" ++ join (map (fun i => setw 20 ("x_" ++ dec i)) (seq 0 nx))
      ++ setw 20 "Obj" ++ join (map (fun i => setw 20 ("f_" ++ dec i)) (seq 0 nf)) ].

(** function_evaluation.cpp L153-159: one row. *)
Definition row (F : numfmt) (iter : nat) (x : list R) (obj : R) (fval : list R) : string :=
  setw 10 (dec iter) ++ join (map (fun v => setw 20 (fmt F v)) x)
    ++ setw 20 (fmt F obj) ++ join (map (fun v => setw 20 (fmt F v)) fval).

(** function_evaluation.cpp L41-161 (output): size assertions, console output, then the file if
    requested and attached; the header precedes the row of iteration 0. *)
Definition output (F : numfmt) (h : hist) (iter : nat) (x : list R) (obj : R) (fval : list R)
  (wr : bool) : outcome hist :=
  assert_ (List.length x =? h_nvars h)
  (assert_ (List.length fval =? h_neq h + h_nineq h)
   (let log := (h_log h ++ [(iter, x, obj, fval)])%list in
    if negb wr || negb (h_open h)
    then Ok (mkHist (h_nvars h) (h_neq h) (h_nineq h) (h_iter h) (h_open h) (h_file h) log)
    else
      let hd := if iter =? 0 then header h (List.length x) (List.length fval) else [] in
      Ok (mkHist (h_nvars h) (h_neq h) (h_nineq h) (h_iter h) (h_open h)
            (h_file h ++ hd ++ [row F iter x obj fval])%list log))).

(** function_evaluation.cpp L505-518 (_output_wrapper): the argument [iter] is only compared
    across ranks; the member counter is what is written, and it advances on every call. *)
Definition output_wrapper (F : numfmt) (h : hist) (_iter_arg : nat) (x : list R) (obj : R)
  (fval : list R) (wr : bool) : outcome hist :=
  h' <- output F h (h_iter h) x obj fval wr ;;
  Ok (mkHist (h_nvars h') (h_neq h') (h_nineq h') (S (h_iter h')) (h_open h') (h_file h')
        (h_log h')).

(** A history of calls (iteration argument, design, objective, constraints, write flag). *)
Definition call : Type := (nat * list R * R * list R * bool)%type.
Fixpoint run_outputs (F : numfmt) (h : hist) (cs : list call) : outcome hist :=
  match cs with
  | [] => Ok h
  | (it, x, obj, fv, wr) :: r =>
      h' <- output_wrapper F h it x obj fv wr ;; run_outputs F h' r
  end.

(** boost::trim: characters removed at both ends (std::isspace, classic locale). *)
Definition is_space (c : ascii) : bool :=
  let n := nat_of_ascii c in (n =? 32) || ((9 <=? n) && (n <=? 13)).
Fixpoint trim_left (s : string) : string :=
  match s with
  | EmptyString => EmptyString
  | String c r => if is_space c then trim_left r else s
  end.
Fixpoint trim_right (s : string) : string :=
  match s with
  | EmptyString => EmptyString
  | String c r =>
      match trim_right r with
      | EmptyString => if is_space c then EmptyString else String c EmptyString
      | r' => String c r'
      end
  end.
Definition trim (s : string) : string := trim_right (trim_left s).

(** boost::split(results, line, is_any_of(" \t"), token_compress_on): [b] says that the previous
    character was a delimiter of the current run. *)
Definition is_delim (c : ascii) : bool :=
  let n := nat_of_ascii c in (n =? 32) || (n =? 9).
Fixpoint split_on (b : bool) (s : string) : list string :=
  match s with
  | EmptyString => [EmptyString]
  | String c r =>
      if is_delim c then (if b then split_on true r else EmptyString :: split_on true r)
      else match split_on false r with
           | t :: ts => String c t :: ts
           | [] => []
           end
  end.
Definition tokens (line : string) : list string := split_on false (trim line).

(** std::getline at the end of a file whose lines are all terminated leaves an empty line. *)
Definition getline (f : list string) : string * list string :=
  match f with [] => (EmptyString, []) | l :: r => (l, r) end.

Definition token (ts : list string) (i : nat) : outcome string :=
  match nth_error ts i with Some t => Ok t | None => Fault OutOfBounds end.
Definition to_nat (s : string) : outcome nat :=
  match parse_nat s with Some n => Ok n | None => Fault LibError end.
Definition to_real (F : numfmt) (s : string) : outcome R :=
  match parse F s with Some r => Ok r | None => Fault LibError end.

(** function_evaluation.cpp L186-207: one header line: name check, then the count. *)
Definition read_header (name : string) (line : string) : outcome nat :=
  let ts := tokens line in
  t0 <- token ts 0 ;;
  assert_ (String.eqb t0 name) (t1 <- token ts 1 ;; to_nat t1).

(** function_evaluation.cpp L211-214: skip [n] lines or to the end of the file. *)
Fixpoint skip_lines (n : nat) (f : list string) : list string :=
  match n with O => f | S k => skip_lines k (snd (getline f)) end.

(** function_evaluation.cpp L166-239 (initialize_dv_from_output_file) for an existing file.
    [xlen] is x.size(); the new contents of [x] is returned. *)
Definition read_dv (F : numfmt) (h : hist) (file : list string) (iter xlen : nat)
  : outcome (list R) :=
  let l1 := getline file in
  ndv <- read_header "n_dv" (fst l1) ;;
  assert_ (ndv =? xlen)
  (let l2 := getline (snd l1) in
   neq <- read_header "n_eq" (fst l2) ;;
   assert_ (neq =? h_neq h)
   (let l3 := getline (snd l2) in
    nineq <- read_header "n_ineq" (fst l3) ;;
    let ts := tokens (fst (getline (skip_lines (iter + 1) (snd l3)))) in
    assert_ (ndv + 1 <? List.length ts)
    (t0 <- token ts 0 ;;
     it_num <- to_nat t0 ;;
     assert_ (it_num =? iter)
     ((fix go (n i : nat) : outcome (list R) :=
         match n with
         | O => Ok []
         | S k => t <- token ts (i + 1) ;; r <- to_real F t ;; rs <- go k (S i) ;; Ok (r :: rs)
         end) ndv 0)))).

(** function_evaluation.cpp L428-431: one sampled design. *)
Definition line_sample (dv1 dv2 : list R) (i divs : nat) : list R :=
  let f := (1 * INR i / (1 * INR divs))%R in
  map (fun p => ((1 - f) * fst p + f * snd p)%R) (combine dv1 dv2).

(** function_evaluation.cpp L425-435: the loop [for (i=0; i<=divs; i++)].  The objective is the
    local initialised to zero and the constraints are zeros: nothing is evaluated. *)
Definition line_loop (F : numfmt) (h : hist) (dv1 dv2 : list R) (divs : nat) : outcome hist :=
  loop (S divs) (fun i h =>
    if divs =? 0 then Fault DivByZero else
    output_wrapper F h i (line_sample dv1 dv2 i divs) 0%R
      (repeat 0%R (h_nineq h + h_neq h)) true) h.

(** function_evaluation.cpp L409-436 (parametric_line_study).  [0/0] (divs = 0) yields NaN in
    C++; it is reported as DivByZero here. *)
Definition parametric_line_study (F : numfmt) (h : hist) (file : list string)
  (iter1 iter2 divs : nat) : outcome hist :=
  dv1 <- read_dv F h file iter1 (h_nvars h) ;;
  dv2 <- read_dv F h file iter2 (h_nvars h) ;;
  line_loop F h dv1 dv2 divs.
