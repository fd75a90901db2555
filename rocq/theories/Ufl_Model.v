(** Model of the reduced-frequency (UG) and of the PK flutter solvers:
    /repo/src/aeroelasticity/ug_flutter_solver.cpp, ug_flutter_root.cpp, ug_flutter_solution.cpp,
    pk_flutter_solver.cpp, pk_flutter_root.cpp, pk_flutter_solution.cpp.
    The generalised eigen-solver is an oracle; printing and memory ownership are not modelled; the sorting of the
    roots against a previous solution is [Flut_Model.sort], and is part of the oracle here.  Reals stand for double. *)
From Coq Require Import Reals List Arith Bool.
From Verif Require Import Base Flut_Model.
Import ListNotations.
Open Scope R_scope.

(** FlutterRootBase, flutter_root_base.h: reduced frequency, velocity, damping, frequency, the flag
    if_nonphysical_root and the eigenvalue *)
Record kroot : Type := mkKr { k_kr : R; k_V : R; k_g : R; k_om : R; k_bad : bool; k_root : cpx }.
(** FlutterSolutionBase: _ref_val, _roots *)
Record ksol : Type := mkKs { k_ref : R; k_roots : list kroot }.
(** get_root, flutter_solution_base.h:69-85 *)
Definition kget (s : ksol) (i : nat) : outcome kroot :=
  match nth_error (k_roots s) i with Some r => Ok r | None => Fault AssertFailed end.
Definition kmap : Type := list (R * ksol).
(** std::map::insert with libmesh_assert(if_success), e.g. ug_flutter_solver.cpp L291-296 *)
Fixpoint kinsert (k : R) (s : ksol) (m : kmap) : outcome kmap :=
  match m with
  | [] => Ok [(k, s)]
  | (j, x) :: t => if rlt k j then Ok ((k, s) :: m)
                   else if rlt j k then t' <- kinsert k s t ;; Ok ((j, x) :: t')
                   else Fault AssertFailed
  end.
(** std::map::find *)
Fixpoint kfind (k : R) (m : kmap) : option ksol :=
  match m with
  | [] => None
  | (j, x) :: t => if negb (rlt k j) && negb (rlt j k) then Some x else kfind k t
  end.
Record kxo : Type := mkKx { kx_first : ksol; kx_second : ksol; kx_num : nat; kx_root : option kroot }.
Definition kxmap : Type := list (R * kxo).
(** std::multimap::insert: behind the entries with the same key *)
Fixpoint kxinsert (k : R) (x : kxo) (m : kxmap) : kxmap :=
  match m with
  | [] => [(k, x)]
  | (j, y) :: t => if rlt k j then (k, x) :: m else (j, y) :: kxinsert k x t
  end.

(** ** UGFlutterRoot::init, ug_flutter_root.cpp L40-68: from the quotient num/den of the eigen-solver.  The
    default values are those of flutter_root_base.cpp L24-35. *)
Definition cnz (a : cpx) : bool := if Req_EM_T (fst a) 0 then if Req_EM_T (snd a) 0 then false else true else true.
Definition ug_root (kr b : R) (num den : cpx) : kroot :=
  if cnz den then
    let root := cdiv num den in
    if rlt 0 (fst root)
    then mkKr kr (sqrt (1 / fst root)) (snd root / fst root) (kr * sqrt (1 / fst root) / b) false root
    else mkKr kr 0 0 0 true root
  else mkKr kr 0 0 0 false (0, 0).
(** PKFlutterRoot::init, pk_flutter_root.cpp L42-50 *)
Definition pk_root (k v : R) (num den : cpx) : kroot :=
  if cnz den then let root := cdiv num den in mkKr k v (fst root) (snd root) false root
  else mkKr k v 0 0 false (0, 0).

(** ** the UG matrices *)
Definition cmat : Type := nat -> nat -> cpx.
Definition cmv (n : nat) (M : cmat) (x : cvec) : cvec := fun i => csum n (fun j => cmul (M i j) (x j)).
(** _initialize_matrices, ug_flutter_solver.cpp L522-573; [a] is the matrix the assembly returns *)
Definition ug_A (kr b rho : R) (m : rmat) (a : cmat) : cmat := fun i j =>
  cadd (cscal ((kr / b) ^ 2) (m i j, 0)) (cscal (rho / 2) (cscal (-1) (a i j))).
Definition ug_B (k : rmat) : cmat := fun i j => (k i j, 0).
(** _initialize_matrix_sensitivity_for_param, L580-628: the aerodynamic matrix stays zero, the argument dXdp is
    not used *)
Definition ug_A_param (kr b rho : R) (dm : rmat) : cmat := ug_A kr b rho dm (fun _ _ => (0, 0)).
Definition ug_B_param (dk : rmat) : cmat := ug_B dk.
(** _initialize_matrix_sensitivity_for_kr, L636-680; [da] is the sensitivity matrix the assembly returns *)
Definition ug_A_kr (kr b rho : R) (m : rmat) (da : cmat) : cmat := fun i j =>
  cadd (cscal (2 * kr * / (b ^ 2)) (m i j, 0)) (cscal (rho / 2) (cscal (-1) (da i j))).
Definition ug_B_kr : cmat := fun _ _ => (0, 0).
(** L936-938 and L953-954 *)
Definition ug_eig_sens (n : nat) (B dA dB : cmat) (eig : cpx) (xl xr : cvec) : cpx :=
  cdiv (cdot n xl (fun i => csub (cmv n dA xr i) (cmul eig (cmv n dB xr i)))) (cdot n xl (cmv n B xr)).

(** ** UG: _identify_crossover_points, L688-864.  [inc] is _include_highest_kr_unstable. *)
Definition max_g : R := 3 / 4.
(** L710-725 *)
Fixpoint kmax (i : nat) (l : list ksol) (mg : R) : outcome R :=
  match l with
  | [] => Ok mg
  | s :: l => r <- kget s i ;; kmax i l (if rlt mg (Rabs (k_g r)) then Rabs (k_g r) else mg)
  end.
Definition kneglect (sols : list ksol) (i : nat) : outcome bool := m <- kmax i sols 0 ;; Ok (rlt m tol).
(** L738-761, one mode *)
Definition ug_divergence (s0 : ksol) (i : nat) (xs : kxmap) : outcome kxmap :=
  r <- kget s0 i ;;
  Ok (if negb (k_bad r) && rlt (Rabs (k_g r)) tol then kxinsert (k_V r) (mkKx s0 s0 i (Some r)) xs else xs).
(** if_process, L779-793 and L823-837; the conjunctions are evaluated from the left *)
Definition ug_if_process (neg : bool) (i : nat) (a : ksol) (b : option ksol) : outcome bool :=
  ra <- kget a i ;;
  if k_bad ra then Ok false else
  match b with
  | None => Fault OutOfBounds
  | Some b =>
      rb <- kget b i ;;
      Ok (negb (k_bad rb) && (rlt tol (Rabs (k_ref a)) || rlt tol (Rabs (k_ref b))) &&
          (rlt (Rabs (k_g ra)) max_g && rlt (Rabs (k_g rb)) max_g) && negb neg)
  end.
(** L795-815: [a] is the solution at the higher reduced frequency *)
Definition ug_process (neg : bool) (i : nat) (a b : ksol) (xs : kxmap) : outcome kxmap :=
  p <- ug_if_process neg i a (Some b) ;;
  if p : bool then
    rl <- kget a i ;; ru <- kget b i ;;
    Ok (if rle (k_g rl) 0 && rlt 0 (k_g ru) then kxinsert (k_V rl) (mkKx a b i None) xs
        else if rlt 0 (k_g rl) && rle (k_g ru) 0 then kxinsert (k_V ru) (mkKx b a i None) xs
        else xs)
  else Ok xs.
Fixpoint ug_pairs (neg : bool) (i : nat) (l : list ksol) (xs : kxmap) : outcome kxmap :=
  match l with
  | a :: ((b :: _) as t) => xs' <- ug_process neg i a b xs ;; ug_pairs neg i t xs'
  | _ => Ok xs
  end.
(** L817-861 *)
Definition ug_highest (inc neg : bool) (i : nat) (l : list ksol) (xs : kxmap) : outcome kxmap :=
  match l with
  | [] => Ok xs
  | a :: t =>
      p <- ug_if_process neg i a (hd_error t) ;;
      r <- kget a i ;;
      Ok (if p && rlt 0 (k_g r) && rlt (k_g r) max_g && inc then kxinsert (k_V r) (mkKx a a i None) xs else xs)
  end.
Definition ug_identify (inc : bool) (m : kmap) : outcome kxmap :=
  let sols := map snd m in
  match sols with
  | [] => Fault OutOfBounds
  | s0 :: _ =>
      let nvals := length (k_roots s0) in
      assert_ (negb (Nat.eqb nvals 0))
      (negs <- loop nvals (fun i acc => b <- kneglect sols i ;; Ok (acc ++ [b])) [] ;;
       xs <- (if rlt (Rabs (k_ref s0)) tol then loop nvals (ug_divergence s0) [] else Ok []) ;;
       loop nvals (fun i xs =>
         let neg := nth i negs false in
         xs <- ug_pairs neg i (rev sols) xs ;; ug_highest inc neg i (rev sols) xs) xs)
  end.

Record kstate : Type := mkKst { ks_sols : kmap; ks_xs : kxmap }.
(** L266-275 (and pk_flutter_solver.cpp L156-164): the i-th value of a sweep from [hi] down to [lo] *)
Definition kr_val (lo hi : R) (n i : nat) : R := if Nat.eqb i n then lo else hi - INR i * ((hi - lo) / INR n).

Section UG.
  (** _analyze(kr, prev), L488-519: solution at kr, its roots already sorted against prev *)
  Variable analyze : R -> option ksol -> ksol.
  (** scan_for_roots, L260-301 *)
  Definition ug_scan (inc : bool) (lo hi : R) (n : nat) (s : kstate) : outcome kstate :=
    match ks_sols s with
    | _ :: _ => Ok s
    | [] =>
        r <- loop (S n) (fun i (a : kmap * option ksol) =>
               let kr := kr_val lo hi n i in
               let sol := analyze kr (snd a) in
               m <- kinsert kr sol (fst a) ;; Ok (m, Some sol)) ([], None) ;;
        xs <- ug_identify inc (fst r) ;;
        Ok (mkKst (fst r) xs)
    end.
  (** _bisection_search, L405-482.  The bracket is in the reduced frequency. *)
  Fixpoint ug_bisect (first : ksol) (num : nat) (g_tol : R) (iters : nat) (b : bracket) (last : option ksol)
      (m : kmap) : outcome (bool * option ksol * kmap) :=
    match iters with
    | O => Ok (false, last, m)
    | S k =>
        if Req_EM_T (upper_g b - lower_g b) 0 then Fault DivByZero else
        let kr := new_V b in
        let sol := analyze kr (Some first) in
        m <- kinsert kr sol m ;;
        r <- kget sol num ;;
        if rle (Rabs (k_g r)) g_tol then Ok (true, Some sol, m)
        else ug_bisect first num g_tol k (shrink b kr (k_g r)) (Some sol) m
    end.
  Definition ug_search (x : kxo) (g_tol : R) (iters : nat) (m : kmap) : outcome (bool * option ksol * kmap) :=
    rl <- kget (kx_first x) (kx_num x) ;; ru <- kget (kx_second x) (kx_num x) ;;
    ug_bisect (kx_first x) (kx_num x) g_tol iters (mkB (k_kr rl) (k_g rl) (k_kr ru) (k_g ru)) None m.
  (** find_next_root and find_critical_root, L156-256 *)
  Fixpoint kx_take (xs : kxmap) : option (kxo * kxmap) :=
    match xs with
    | [] => None
    | (k, x) :: t => match kx_root x with
                     | None => Some (x, t)
                     | Some _ => match kx_take t with None => None | Some (y, r) => Some (y, (k, x) :: r) end
                     end
    end.
  Definition ug_refine (x : kxo) (rest : kxmap) (g_tol : R) (iters : nat) (m : kmap) : outcome (kroot * kstate) :=
    r <- ug_search x g_tol iters m ;;
    match snd (fst r) with
    | None => Fault NullDeref
    | Some sol =>
        root <- kget sol (kx_num x) ;;
        Ok (root, mkKst (snd r) (kxinsert (k_V root) (mkKx (kx_first x) (kx_second x) (kx_num x) (Some root)) rest))
    end.
  Definition ug_next (g_tol : R) (iters : nat) (s : kstate) : outcome (bool * option kroot * kstate) :=
    match kx_take (ks_xs s) with
    | None => Ok (false, None, s)
    | Some (x, rest) => r <- ug_refine x rest g_tol iters (ks_sols s) ;; Ok (true, Some (fst r), snd r)
    end.
  Fixpoint ug_critical_loop (fuel : nat) (g_tol : R) (iters : nat) (s : kstate)
    : outcome (bool * option kroot * kstate) :=
    match fuel with
    | O => Fault OutOfFuel
    | S k =>
        match ks_xs s with
        | [] => Ok (false, None, s)
        | (_, x) :: rest =>
            match kx_root x with
            | Some r => Ok (true, Some r, s)
            | None => r <- ug_refine x rest g_tol iters (ks_sols s) ;; ug_critical_loop k g_tol iters (snd r)
            end
        end
    end.
  Definition ug_critical (g_tol : R) (iters : nat) (s : kstate) : outcome (bool * option kroot * kstate) :=
    ug_critical_loop (S (length (ks_xs s))) g_tol iters s.
  (** n_roots_found / get_root, L108-151: the roots in the order of the map *)
  Definition ug_found (s : kstate) : list kroot :=
    flat_map (fun e => match kx_root (snd e) with Some r => [r] | None => [] end) (ks_xs s).
End UG.

(** ** PK *)
(** an Eigen block of [n] rows and columns of a dense matrix, starting at (r0, c0): the access is refused (assertion
    in a debug build, a write outside the allocation otherwise) unless the block lies inside the matrix *)
Definition set_block (M : mat cpx) (r0 c0 n : nat) (v : nat -> nat -> cpx) : outcome (mat cpx) :=
  if (n <=? rows M) && (n <=? cols M) && (r0 + n <=? rows M) && (c0 + n <=? cols M)
  then Ok (mkMat (rows M) (cols M)
         (fun i j => if (r0 <=? i) && (i <? r0 + n) && (c0 <=? j) && (j <? c0 + n) then v (i - r0)%nat (j - c0)%nat
                     else ent M i j))
  else Fault OutOfBounds.
Definition ident (i j : nat) : cpx := if Nat.eqb i j then (1, 0) else (0, 0).
(** _initialize_matrices, pk_flutter_solver.cpp L966-1020: corners of the two matrices passed by the caller; the
    stiffness argument is not written *)
Definition pk_matrices (n : nat) (rho v : R) (m k : rmat) (a : cmat) (A B : mat cpx) : outcome (mat cpx * mat cpx) :=
  A <- set_block A 0 (cols A - n) n ident ;;
  A <- set_block A (rows A - n) 0 n
         (fun i j => cadd (cscal (-1) (k i j, 0)) (cscal (rho / 2 * v * v) (cscal (-1) (a i j)))) ;;
  B <- set_block B 0 0 n ident ;;
  B <- set_block B (rows B - n) (cols B - n) n (fun i j => (m i j, 0)) ;;
  Ok (A, B).
(** _analyze, L837-872: the matrices are default constructed (0 x 0).  [eigs] stands for LAPACK, the roots and the
    sorting *)
Definition pk_analyze (n : nat) (rho : R) (m k : R -> R -> rmat) (a : R -> R -> cmat)
    (eigs : mat cpx * mat cpx -> R -> R -> option ksol -> ksol) (kr v : R) (prev : option ksol) : outcome ksol :=
  let empty := mkMat 0 0 (fun _ _ => (0, 0)) in
  AB <- pk_matrices n rho v (m kr v) (k kr v) (a kr v) empty empty ;;
  Ok (eigs AB kr v prev).
(** _insert_new_solution, L659-702 *)
Definition pk_merge (k_red : R) (old new : list kroot) : list kroot :=
  map (fun p => let '(o, n) := p in
       if rlt (Rabs (Rabs (k_kr n) - k_red)) (Rabs (Rabs (k_kr o) - k_kr o)) then n else o) (combine old new).
Fixpoint kreplace (k : R) (s : ksol) (m : kmap) : kmap :=
  match m with
  | [] => []
  | (j, x) :: t => if negb (rlt k j) && negb (rlt j k) then (j, s) :: t else (j, x) :: kreplace k s t
  end.
Definition pk_insert (k_red : R) (sol : ksol) (m : kmap) : outcome kmap :=
  match kfind (k_ref sol) m with
  | None => kinsert (k_ref sol) sol m
  | Some old =>
      assert_ (Nat.eqb (length (k_roots old)) (length (k_roots sol)))
      (Ok (kreplace (k_ref sol) (mkKs (k_ref old) (pk_merge k_red (k_roots old) (k_roots sol))) m))
  end.
Section PK.
  Variable analyze : R -> R -> option ksol -> outcome ksol.
  (** one pass of the inner loop of scan_for_roots, L171-207 *)
  Definition pk_pass (vlo vhi : R) (nv : nat) (kr : R) (m : kmap) : outcome kmap :=
    r <- loop (S nv) (fun i (a : kmap * option ksol) =>
           let v := V_val vlo vhi nv i in
           sol <- analyze kr v (snd a) ;;
           m <- pk_insert kr sol (fst a) ;;
           match kfind v m with None => Fault AssertFailed | Some s => Ok (m, Some s) end) (m, None) ;;
    Ok (fst r).
  (** scan_for_roots without the crossover points, L146-210 *)
  Definition pk_scan (vlo vhi : R) (nv : nat) (klo khi : R) (nk : nat) : outcome kmap :=
    loop (S nk) (fun j m => pk_pass vlo vhi nv (kr_val klo khi nk j) m) [].
End PK.
