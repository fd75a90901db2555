(** Model of the eigenproblem part of MAST::NonlinearSystem, /repo/src/base/nonlinear_system.cpp, and of
    MAST::EigenproblemAssembly, /repo/src/base/eigenproblem_assembly.cpp.
    One processor; matrices and vectors as in Sens_Model, constraints as there.  The SLEPc solver is a
    function handed to the model; values are exact reals. *)
From Coq Require Import List Arith Bool Reals.
From Verif Require Import Base RBool Sens_Model.
Import ListNotations.
Open Scope R_scope.

(** What the assembly asks of an element: its two matrices at the base solution, and their sensitivities
    given the base solution and its sensitivity (with the flag _base_sol != nullptr). *)
Record eelem : Type := mkEE {
  ee_dofs : list nat;
  ee_A : params -> vec -> matrix;
  ee_B : params -> vec -> matrix;
  ee_dA : params -> nat -> bool -> vec -> vec -> matrix;
  ee_dB : params -> nat -> bool -> vec -> vec -> matrix }.

(** libMesh::EigenProblemType *)
Inductive ptype : Type := HEP | GHEP | NHEP | GNHEP | GHIEP.
Definition generalized (t : ptype) : bool := match t with GHEP | GNHEP | GHIEP => true | _ => false end.

(** The problem: constraint rows and number of dofs in [S], elements, parameter values, and the base
    solution with its sensitivity (set_base_solution). *)
Record prob : Type := mkProb {
  dofs : sys;
  els : list eelem;
  th : params;
  base : option vec;
  base_sens : option vec }.

(** Members of the system.  [matB = None] is a null matrix_B; [condensed = None] means
    !_condensed_dofs_initialized; [pairs] is what the solver holds. *)
Record esys : Type := mkES {
  kind : ptype;
  exchange : bool;
  condensed : option (list nat);
  n_req : nat;
  n_conv : nat;
  matA : matrix;
  matB : option matrix;
  pairs : list ((R * R) * vec) }.
Definition with_mats (s : esys) (A B : matrix) : esys :=
  mkES (kind s) (exchange s) (condensed s) (n_req s) (n_conv s) A (Some B) (pairs s).
Definition with_pairs (s : esys) (nc : nat) (l : list ((R * R) * vec)) : esys :=
  mkES (kind s) (exchange s) (condensed s) (n_req s) nc (matA s) (matB s) l.

(** init_data, nonlinear_system.cpp:114-157: matrix_B exists for generalized problems, or when the user
    asked for it ([init_B], nonlinear_system.h:103) *)
Definition init (k : ptype) (init_B : bool) : esys :=
  mkES k false None 0 0 mzero (if generalized k || init_B then Some mzero else None) [].

(** initialize_condensed_dofs, cpp:690-738; [dirichlet] = get_system_dirichlet_bc_dofs *)
Definition initialize_condensed_dofs (S : sys) (dirichlet : list nat) (s : esys) : esys :=
  let free := filter (fun i => negb (existsb (Nat.eqb i) dirichlet))
                (filter (fun i => negb (constrained S i)) (seq 0 (n S))) in
  mkES (kind s) (exchange s) (Some free) (n_req s) (n_conv s) (matA s) (matB s) (pairs s).

(** ** EigenproblemAssembly *)
Definition local_base (b : option vec) (ds : list nat) : vec :=
  match b with Some v => gather ds v | None => zero end.
(** eigenproblem_assemble, eigenproblem_assembly.cpp:87-174: both matrices are referenced *)
Definition assembleA (p : prob) : matrix :=
  fold_left (fun g e => add_matrix (dofs p) (ee_dofs e) (ee_A e (th p) (local_base (base p) (ee_dofs e))) g)
    (els p) mzero.
Definition assembleB (p : prob) : matrix :=
  fold_left (fun g e => add_matrix (dofs p) (ee_dofs e) (ee_B e (th p) (local_base (base p) (ee_dofs e))) g)
    (els p) mzero.
Definition eigenproblem_assemble (p : prob) (s : esys) : outcome esys :=
  match matB s with
  | None => Fault NullDeref
  | Some _ => Ok (with_mats s (assembleA p) (assembleB p))
  end.
(** eigenproblem_sensitivity_assemble, eigenproblem_assembly.cpp:181-287.  The local vector that is handed
    over as solution sensitivity keeps the zeros of [sol] without a base solution. *)
Definition has_base (p : prob) : bool := match base p with Some _ => true | None => false end.
Definition sens_local (p : prob) (ds : list nat) : vec :=
  match base p, base_sens p with Some _, Some v => gather ds v | _, _ => zero end.
Definition sens_matrix (p : prob)
    (d : eelem -> params -> nat -> bool -> vec -> vec -> matrix) (f : nat) : matrix :=
  fold_left (fun g e => add_matrix (dofs p) (ee_dofs e)
     (d e (th p) f (has_base p) (local_base (base p) (ee_dofs e)) (sens_local p (ee_dofs e))) g) (els p) mzero.
Definition eigenproblem_sensitivity_assemble (p : prob) (f : nat) (s : esys) : outcome esys :=
  match matB s with
  | None => Fault NullDeref
  | Some _ =>
      if has_base p && match base_sens p with None => true | Some _ => false end
      then Fault AssertFailed
      else Ok (with_mats s (sens_matrix p ee_dA f) (sens_matrix p ee_dB f))
  end.

(** ** eigenproblem_solve, cpp:239-379.  [slepc A B m nev] gives the converged pairs of size m. *)
Definition sub (l : list nat) (M : matrix) : matrix := fun i j => M (nth i l O) (nth j l O).
Definition eigenproblem_solve
    (slepc : matrix -> option matrix -> nat -> nat -> list ((R * R) * vec)) (p : prob) (s : esys)
    : outcome esys :=
  assert_ (negb (n_req s =? 0)%nat)
  (s <- eigenproblem_assemble p s ;;
   let finish A B m :=
     let l := slepc A B m (n_req s) in Ok (with_pairs s (length l) l) in
   match condensed s with
   | None =>
       if generalized (kind s) then
         match matB s with
         | Some B => if exchange s then finish B (Some (matA s)) (n (dofs p))
                     else finish (matA s) (Some B) (n (dofs p))
         | None => Fault NullDeref
         end
       else assert_ (match matB s with None => true | Some _ => false end)
              (finish (matA s) None (n (dofs p)))
   | Some free =>
       assert_ (negb (length free =? 0)%nat)
       (if generalized (kind s) then
          match matB s with
          | Some B => if exchange s then finish (sub free B) (Some (sub free (matA s))) (length free)
                      else finish (sub free (matA s)) (Some (sub free B)) (length free)
          | None => Fault NullDeref
          end
        else assert_ (match matB s with None => true | Some _ => false end)
               (finish (sub free (matA s)) None (length free)))
   end).

(** ** get_eigenpair, cpp:407-548 *)
(** 1./(a + ib); division by zero does not give a number *)
Definition cinv (v : R * R) : outcome (R * R) :=
  let d := fst v * fst v + snd v * snd v in
  if reqb d 0 then Fault DivByZero else Ok (fst v / d, - snd v / d).
(** vec_re.zero(); vec_re.set(free[j], temp(j)) *)
Definition scatter (free : list nat) (y : vec) : vec :=
  fold_left (fun v j => upd v (nth j free O) (y j)) (seq 0 (length free)) zero.
Definition mat_vec (m : nat) (M : matrix) (x : vec) : vec := fun i => sum m (fun j => M i j * x j).
Definition rgt (x : R) : bool := rltb 0 x.
Definition get_eigenpair (p : prob) (s : esys) (i : nat) : outcome ((R * R) * vec) :=
  match nth_error (pairs s) i with
  | None => Fault LibError
  | Some (mu, y) =>
      x <- match condensed s with
           | None => Ok y
           | Some free => assert_ (negb (length free =? 0)%nat) (Ok (scatter free y))
           end ;;
      v <- (if exchange s then cinv mu else Ok mu) ;;
      let m := n (dofs p) in
      match kind s with
      | HEP =>
          let q := dot m x x in
          assert_ (rgt q) (Ok (v, fun k => x k * (1 / sqrt q)))
      | GHEP =>
          match matB s with
          | None => Fault NullDeref
          | Some B =>
              let q := dot m (mat_vec m B x) x in
              assert_ (rgt q) (Ok (v, fun k => x k * (1 / sqrt q)))
          end
      | _ => Fault LibError
      end
  end.

(** ** eigenproblem_sensitivity_solve, cpp:555-686 *)
Definition indices_for (s : esys) (ind : option (list nat)) : outcome (list nat) :=
  let nconv := Nat.min (n_req s) (n_conv s) in
  match ind with
  | Some l => assert_ (length l =? nconv)%nat (assert_ (forallb (fun i => (i <? nconv)%nat) l) (Ok l))
  | None => Ok (seq 0 nconv)
  end.
(** denominators, eigenvalues and vectors, cpp:611-644 *)
Fixpoint right_vectors (p : prob) (s : esys) (l : list nat) : outcome (list (R * R * vec)) :=
  match l with
  | [] => Ok []
  | i :: t =>
      e <- get_eigenpair p s i ;;
      let x := snd e in
      d <- match kind s with
           | HEP => Ok (dot (n (dofs p)) x x)
           | GHEP => match matB s with
                     | Some B => Ok (dot (n (dofs p)) x (mat_vec (n (dofs p)) B x))
                     | None => Fault NullDeref end
           | _ => Fault LibError
           end ;;
      rest <- right_vectors p s t ;;
      Ok ((d, fst (fst e), x) :: rest)
  end.
(** cpp:651-677, [s] now holds the sensitivities of the matrices *)
Definition eig_sens (p : prob) (s : esys) (r : R * R * vec) : outcome R :=
  let '(d, lam, x) := r in
  let m := n (dofs p) in
  let a := dot m x (mat_vec m (matA s) x) in
  match kind s with
  | HEP => Ok ((a - lam * dot m x x) / d)
  | GHEP => match matB s with
            | Some B => Ok ((a - lam * dot m x (mat_vec m B x)) / d)
            | None => Fault NullDeref end
  | _ => Fault LibError
  end.
Fixpoint all_sens (p : prob) (s : esys) (l : list (R * R * vec)) : outcome (list R) :=
  match l with
  | [] => Ok []
  | r :: t => a <- eig_sens p s r ;; b <- all_sens p s t ;; Ok (a :: b)
  end.
Definition eigenproblem_sensitivity_solve (p : prob) (s : esys) (f : nat) (ind : option (list nat))
    : outcome (list R * esys) :=
  assert_ (negb (n_conv s =? 0)%nat)
  (l <- indices_for s ind ;;
   r <- right_vectors p s l ;;
   s' <- eigenproblem_sensitivity_assemble p f s ;;
   q <- all_sens p s' r ;;
   Ok (q, s')).
