(** Model of the time-domain flutter solver: /repo/src/aeroelasticity/time_domain_flutter_solver.cpp,
    time_domain_flutter_solution.cpp, ug_flutter_solver.cpp (calculate_sensitivity).
    The generalised eigen-solver (_analyze without the sorting) is an oracle; printing and memory
    ownership are not modelled.  Reals stand for double. *)
From Coq Require Import Reals List Arith Bool.
From Verif Require Import Base.
Import ListNotations.
Open Scope R_scope.

Definition rlt (a b : R) : bool := if Rlt_dec a b then true else false.
Definition rle (a b : R) : bool := if Rle_dec a b then true else false.

(** FlutterRootBase: velocity, real and imaginary part of the root (flutter_root_base.h) *)
Record froot : Type := mkRoot { r_V : R; r_re : R; r_im : R }.
(** FlutterSolutionBase: _ref_val, _roots *)
Record fsol : Type := mkSol { ref_val : R; sroots : list froot }.
(** get_root, flutter_solution_base.h:69-85 *)
Definition get_root (s : fsol) (i : nat) : outcome froot :=
  match nth_error (sroots s) i with Some r => Ok r | None => Fault AssertFailed end.

(** std::map<Real, FlutterSolutionBase*> as the list of its entries in key order; insert with
    libmesh_assert(if_success) (e.g. L598-602) *)
Definition smap : Type := list (R * fsol).
Fixpoint sinsert (V : R) (s : fsol) (m : smap) : outcome smap :=
  match m with
  | [] => Ok [(V, s)]
  | (k, x) :: t => if rlt V k then Ok ((V, s) :: m)
                   else if rlt k V then t' <- sinsert V s t ;; Ok ((k, x) :: t')
                   else Fault AssertFailed
  end.

(** FlutterRootCrossoverBase and std::multimap<Real, FlutterRootCrossoverBase*>; an equal key is inserted
    behind the existing ones (C++11) *)
Record xover : Type := mkX { x_first : fsol; x_second : fsol; x_num : nat; x_root : option froot }.
Definition xmap : Type := list (R * xover).
Fixpoint xinsert (k : R) (x : xover) (m : xmap) : xmap :=
  match m with
  | [] => [(k, x)]
  | (j, y) :: t => if rlt k j then (k, x) :: m else (j, y) :: xinsert k x t
  end.

Definition tol : R := 1 / 100000.

(** ** _identify_crossover_points, L822-985 *)
(** L849-878: [Ok true] when mode i is neglected *)
Fixpoint max_vals (i : nat) (l : list fsol) (mg mw : R) : outcome (R * R) :=
  match l with
  | [] => Ok (mg, mw)
  | s :: l => r <- get_root s i ;;
              max_vals i l (if rlt mg (Rabs (r_re r)) then Rabs (r_re r) else mg)
                           (if rlt mw (r_im r) then r_im r else mw)
  end.
Definition big : R := IZR (10 ^ 100).
Definition neglect (sols : list fsol) (i : nat) : outcome bool :=
  m <- max_vals i sols 0 (- big) ;; Ok (rlt (fst m) tol || rlt (snd m) 0).

(** L897-940, one pair *)
Definition process (neg : bool) (i : nat) (lower upper : fsol) (xs : xmap) : outcome xmap :=
  if (rlt tol (Rabs (ref_val lower)) || rlt tol (Rabs (ref_val upper))) && negb neg then
    rl <- get_root lower i ;; ru <- get_root upper i ;;
    Ok (if rle (r_re rl) 0 && rlt 0 (r_re ru) then xinsert (r_V rl) (mkX lower upper i None) xs
        else if rlt 0 (r_re rl) && rle (r_re ru) 0 then xinsert (r_V ru) (mkX upper lower i None) xs
        else xs)
  else Ok xs.
Fixpoint process_pairs (neg : bool) (i : nat) (l : list fsol) (xs : xmap) : outcome xmap :=
  match l with
  | a :: ((b :: _) as t) => xs' <- process neg i a b xs ;; process_pairs neg i t xs'
  | _ => Ok xs
  end.
(** L949-982: the mode is already unstable at the lowest velocity *)
Definition process_initial (neg : bool) (i : nat) (l : list fsol) (xs : xmap) : outcome xmap :=
  match l with
  | [] => Fault OutOfBounds
  | s0 :: t =>
      c <- (if rlt tol (Rabs (ref_val s0)) then Ok true
            else match t with [] => Fault OutOfBounds | s1 :: _ => Ok (rlt tol (Rabs (ref_val s1))) end) ;;
      r <- get_root s0 i ;;
      Ok (if c && negb neg && rlt 0 (r_re r) then xinsert (r_V r) (mkX s0 s0 i None) xs else xs)
  end.
Definition identify_crossover_points (m : smap) : outcome xmap :=
  let sols := map snd m in
  match sols with
  | [] => Fault OutOfBounds
  | s0 :: _ =>
      let nvals := length (sroots s0) in
      assert_ (negb (Nat.eqb nvals 0))
      (negs <- loop nvals (fun i acc => b <- neglect sols i ;; Ok (acc ++ [b])) [] ;;
       loop nvals (fun i xs =>
         let neg := nth i negs false in
         xs <- process_pairs neg i sols xs ;; process_initial neg i sols xs) [])
  end.

Record fstate : Type := mkF { f_sols : smap; f_xs : xmap }.

Section Search.
  (** _analyze(V, prev): solution at V, its roots already sorted against prev (L640-670) *)
  Variable analyze : R -> option fsol -> fsol.

  (** scan_for_roots, L425-461 *)
  Definition V_val (lo hi : R) (n i : nat) : R := if Nat.eqb i n then hi else lo + INR i * ((hi - lo) / INR n).
  Definition scan_for_roots (lo hi : R) (n : nat) (s : fstate) : outcome fstate :=
    match f_sols s with
    | _ :: _ => Ok s
    | [] =>
        r <- loop (S n) (fun i (a : smap * option fsol) =>
               let V := V_val lo hi n i in
               let sol := analyze V (snd a) in
               m <- sinsert V sol (fst a) ;; Ok (m, Some sol)) ([], None) ;;
        xs <- identify_crossover_points (fst r) ;;
        Ok (mkF (fst r) xs)
    end.

  (** _bisection_search, L566-634.  [iters] counts the remaining iterations; [last] is new_sol *)
  Record bracket : Type := mkB { lower_V : R; lower_g : R; upper_V : R; upper_g : R }.
  Definition new_V (b : bracket) : R :=
    lower_V b + (upper_V b - lower_V b) / (upper_g b - lower_g b) * (0 - lower_g b).
  Definition shrink (b : bracket) (V g : R) : bracket :=
    if rlt g 0 then mkB V g (upper_V b) (upper_g b) else mkB (lower_V b) (lower_g b) V g.
  Fixpoint bisect (first : fsol) (num : nat) (g_tol : R) (iters : nat) (b : bracket) (last : option fsol)
      (m : smap) : outcome (bool * option fsol * smap) :=
    match iters with
    | O => Ok (false, last, m)
    | S k =>
        if Req_EM_T (upper_g b - lower_g b) 0 then Fault DivByZero else
        let V := new_V b in
        let sol := analyze V (Some first) in
        m <- sinsert V sol m ;;
        r <- get_root sol num ;;
        if rle (Rabs (r_re r)) g_tol then Ok (true, Some sol, m)
        else bisect first num g_tol k (shrink b V (r_re r)) (Some sol) m
    end.
  Definition bisection_search (x : xover) (g_tol : R) (iters : nat) (m : smap)
    : outcome (bool * option fsol * smap) :=
    rl <- get_root (x_first x) (x_num x) ;; ru <- get_root (x_second x) (x_num x) ;;
    bisect (x_first x) (x_num x) g_tol iters
      (mkB (ref_val (x_first x)) (r_re rl) (ref_val (x_second x)) (r_re ru)) None m.

  (** the first crossover without a root, and the others *)
  Fixpoint take_open (xs : xmap) : option (xover * xmap) :=
    match xs with
    | [] => None
    | (k, x) :: t => match x_root x with
                     | None => Some (x, t)
                     | Some _ => match take_open t with
                                 | None => None | Some (y, r) => Some (y, (k, x) :: r) end
                     end
    end.
  (** refine one crossover and re-insert it (L171-187, L221-240) *)
  Definition refine (x : xover) (rest : xmap) (g_tol : R) (iters : nat) (m : smap)
    : outcome (froot * fstate) :=
    r <- bisection_search x g_tol iters m ;;
    match snd (fst r) with
    | None => Fault NullDeref                       (* sol.second is nullptr when max_iters = 0 *)
    | Some sol =>
        root <- get_root sol (x_num x) ;;
        Ok (root, mkF (snd r) (xinsert (r_V root) (mkX (x_first x) (x_second x) (x_num x) (Some root)) rest))
    end.
  (** find_next_root, L153-194 *)
  Definition find_next_root (g_tol : R) (iters : nat) (s : fstate) : outcome (bool * option froot * fstate) :=
    match take_open (f_xs s) with
    | None => Ok (false, None, s)
    | Some (x, rest) => r <- refine x rest g_tol iters (f_sols s) ;; Ok (true, Some (fst r), snd r)
    end.
  (** find_critical_root, L199-248; [fuel] bounds the while loop *)
  Fixpoint find_critical_loop (fuel : nat) (g_tol : R) (iters : nat) (s : fstate)
    : outcome (bool * option froot * fstate) :=
    match fuel with
    | O => Fault OutOfFuel
    | S k =>
        match f_xs s with
        | [] => Ok (false, None, s)
        | (_, x) :: rest =>
            match x_root x with
            | Some r => Ok (true, Some r, s)
            | None => r <- refine x rest g_tol iters (f_sols s) ;; find_critical_loop k g_tol iters (snd r)
            end
        end
    end.
  Definition find_critical_root (g_tol : R) (iters : nat) (s : fstate) : outcome (bool * option froot * fstate) :=
    find_critical_loop (S (length (f_xs s))) g_tol iters s.

  (** n_roots_found / get_root, L104-148 *)
  Definition found_roots (s : fstate) : list froot :=
    flat_map (fun e => match x_root (snd e) with Some r => [r] | None => [] end) (f_xs s).
End Search.

(** ** TimeDomainFlutterSolution *)
(** n_unstable_roots_in_upper_complex_half, time_domain_flutter_solution.cpp:84-104 *)
Fixpoint n_unstable (t : R) (l : list froot) : nat :=
  match l with
  | [] => 0
  | r :: l => (if rle 0 (r_im r) && rle t (r_re r) then 1 else 0) + n_unstable t l
  end%nat.
(** get_critical_root, 110-158: running (unstable, max_g) *)
Fixpoint crit_scan (t : R) (l : list froot) (u g : option froot) : option froot :=
  match l with
  | [] => match u with Some r => Some r | None => g end
  | r :: l =>
      if rle 0 (r_im r) then
        let g' := match g with None => Some r | Some q => if rle (r_re q) (r_re r) then Some r else Some q end in
        let u' := if rle t (r_re r) && rlt 0 (r_V r) then
                    match u with None => Some r | Some q => if rle (r_V r) (r_V q) then Some r else Some q end
                  else u in
        crit_scan t l u' g'
      else crit_scan t l u g
  end.
Definition get_critical_root (t : R) (s : fsol) : option froot := crit_scan t (sroots s) None None.

(** ** analyze_and_find_critical_root_without_tracking, time_domain_flutter_solver.cpp:256-419.
    The two assertions on empty maps hold initially; [n] is _n_V_divs > 0. *)
Section NoTracking.
  Variable analyze : R -> option fsol -> fsol.
  Variable g_tol : R.
  Definition crit (s : fsol) : option froot := get_critical_root g_tol s.
  (** 309-344: march until the upper velocity has an unstable root or the end of the range is reached;
      (lower_V, lower sol, upper_V, upper sol, map) *)
  Fixpoint march (fuel : nat) (dV hi lower_V : R) (lsol : fsol) (m : smap) : outcome (R * fsol * R * fsol * smap) :=
    match fuel with
    | O => Fault OutOfFuel
    | S k =>
        let upper_V := lower_V + dV in
        let sol := analyze upper_V (Some lsol) in
        m <- sinsert upper_V sol m ;;
        if negb (Nat.eqb (n_unstable g_tol (sroots sol)) 0) || rle hi upper_V
        then Ok (lower_V, lsol, upper_V, sol, m)
        else march k dV hi upper_V sol m
    end.
  (** 370-371 *)
  Definition damped_V (b : bracket) : R :=
    upper_V b + 1/2 * (upper_V b - lower_V b) / (upper_g b - lower_g b) * (1/10000 - upper_g b).
  (** 355-412; [sol] is the last solution computed.  get_critical_root returns nullptr when no root lies in the
      upper half plane *)
  Fixpoint refine_nt (iters : nat) (lV uV : R) (lr ur : froot) (sol : fsol) (m : smap)
    : outcome (bool * option froot * smap) :=
    match iters with
    | O => Ok (false, crit sol, m)
    | S k =>
        let b := mkB lV (r_re lr) uV (r_re ur) in
        if Req_EM_T (upper_g b - lower_g b) 0 then Fault DivByZero else
        let V := damped_V b in
        let sol' := analyze V (Some sol) in
        m <- sinsert V sol' m ;;
        match crit sol' with
        | None => Fault NullDeref
        | Some root =>
            if rlt 0 (r_re root) && rle (r_re root) g_tol then Ok (true, Some root, m)
            else if rlt (r_re root) 0 then refine_nt k V uV root ur sol' m
            else refine_nt k lV V lr root sol' m
        end
    end.
  Definition critical_without_tracking (fuel : nat) (lo hi : R) (n iters : nat) : outcome (bool * option froot * smap) :=
    let s0 := analyze lo None in
    assert_ (if rlt 0 lo then Nat.eqb (n_unstable g_tol (sroots s0)) 0 else true)
    (r <- march fuel ((hi - lo) / INR n) hi lo s0 [(lo, s0)] ;;
     let lV := fst (fst (fst (fst r))) in let lsol := snd (fst (fst (fst r))) in
     let uV := snd (fst (fst r)) in let usol := snd (fst r) in let m := snd r in
     if Nat.eqb (n_unstable g_tol (sroots usol)) 0 then Ok (false, None, m)
     else match iters with
          | O => Ok (false, crit usol, m)
          | _ => match crit lsol, crit usol with
                 | Some lr, Some ur => refine_nt iters lV uV lr ur usol m
                 | _, _ => Fault NullDeref
                 end
          end).
End NoTracking.

(** sort, 165-202.  [score p r] is |val| for the root p of the reference solution and the root r; scores are
    an arbitrary type with the floating-point comparison [gt] (infinities and NaN included). *)
Section Sort.
  Variables (A S : Type) (score : A -> A -> S) (gt : S -> S -> bool) (zero : S).
  (** inner loop over j = i .. nvals-1 *)
  Fixpoint best_of (p : A) (l : list A) (j : nat) (mv : S) (mj : nat) : nat :=
    match l with
    | [] => mj
    | r :: l => if gt (score p r) mv then best_of p l (1 + j) (score p r) j else best_of p l (1 + j) mv mj
    end.
  Definition swap (l : list A) (i j : nat) : list A :=
    match nth_error l i, nth_error l j with
    | Some a, Some b =>
        map (fun k => if Nat.eqb k i then b else if Nat.eqb k j then a else nth k l a) (seq 0 (length l))
    | _, _ => l
    end.
  Definition sort (prev l : list A) : outcome (list A) :=
    assert_ (Nat.eqb (length l) (length prev))
    (match length l with
     | O => Fault AssertFailed            (* nvals-1 wraps around; get_root(0) asserts *)
     | Datatypes.S n =>
         loop n (fun i l =>
           match nth_error prev i with
           | None => Fault AssertFailed
           | Some p =>
               let k := best_of p (skipn i l) i zero n in
               Ok (if Nat.eqb i k then l else swap l i k)
           end) l
     end).
End Sort.

(** ** calculate_sensitivity, L991-1093 *)
(** complex numbers *)
Definition cpx : Type := (R * R)%type.
Definition cadd (a b : cpx) : cpx := (fst a + fst b, snd a + snd b).
Definition csub (a b : cpx) : cpx := (fst a - fst b, snd a - snd b).
Definition cmul (a b : cpx) : cpx := (fst a * fst b - snd a * snd b, fst a * snd b + snd a * fst b).
Definition conj (a : cpx) : cpx := (fst a, - snd a).
Definition cinv (a : cpx) : cpx :=
  (fst a / (fst a * fst a + snd a * snd a), - snd a / (fst a * fst a + snd a * snd a)).
Definition cdiv (a b : cpx) : cpx := cmul a (cinv b).
Definition cscal (r : R) (a : cpx) : cpx := (r * fst a, r * snd a).
Fixpoint csum (n : nat) (f : nat -> cpx) : cpx := match n with O => (0, 0) | S k => cadd (csum k f) (f k) end.
Definition cvec : Type := nat -> cpx.
Definition rmat : Type := nat -> nat -> R.
(** Eigen's a.dot(b) conjugates a *)
Definition cdot (n : nat) (a b : cvec) : cpx := csum n (fun i => cmul (conj (a i)) (b i)).
Definition rmv (n : nat) (M : rmat) (x : cvec) : cvec := fun i => csum n (fun j => cscal (M i j) (x j)).

(** _initialize_matrices, L676-745 and _initialize_matrix_sensitivity_for_param, L752-815: both write the same
    block pattern *)
Definition block_A (n : nat) (k c : rmat) : rmat := fun i j =>
  if Nat.ltb i n then (if Nat.ltb j n then 0 else if Nat.eqb j (i + n) then 1 else 0)
  else if Nat.ltb j n then - k (i - n)%nat j else - c (i - n)%nat (j - n)%nat.
Definition block_B (n : nat) (m : rmat) : rmat := fun i j =>
  if Nat.ltb i n then (if Nat.eqb i j then 1 else 0)
  else if Nat.ltb j n then 0 else m (i - n)%nat (j - n)%nat.
(** L1051-1053, 1073-1074 *)
Definition eig_sens (N : nat) (A B dA dB : rmat) (eig : cpx) (xl xr : cvec) : cpx :=
  cdiv (cdot N xl (fun i => csub (rmv N dA xr i) (cmul eig (rmv N dB xr i)))) (cdot N xl (rmv N B xr)).

(** the solution-sensitivity arguments: which vector is dereferenced in the two assemblies, L1024-1062.
    [zero_sol_sens] is only allocated when dXdp is null. *)
Inductive which : Type := Given | ZeroVec.
Definition dXdp_used (dXdp dXdV : bool) : outcome (which * which) :=
  let zero_sol_sens := negb dXdp in
  let first := if dXdp then Given else ZeroVec in
  if dXdV then Ok (first, Given) else if zero_sol_sens then Ok (first, ZeroVec) else Fault NullDeref.

(** L1082, 1085 *)
Definition td_sensitivity (deig_dp deig_dV : cpx) : R * cpx :=
  let V_sens := - fst deig_dp / fst deig_dV in
  (V_sens, cadd deig_dp (cscal V_sens deig_dV)).
(** ug_flutter_solver.cpp:951-975 *)
Definition ug_sensitivity (eig deig_dp deig_dkr : cpx) : R * R * cpx :=
  let dg_dp := snd deig_dp / fst eig - snd eig / (fst eig ^ 2) * fst deig_dp in
  let dg_dkr := snd deig_dkr / fst eig - snd eig / (fst eig ^ 2) * fst deig_dkr in
  let dkr_dp := - dg_dp / dg_dkr in
  let root_sens := cadd deig_dp (cscal dkr_dp deig_dkr) in
  (dkr_dp, - (1/2) * fst root_sens / Rpower (fst eig) (3/2), root_sens).
