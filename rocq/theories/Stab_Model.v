(** Model of the stabilised sensitivity solver,
    /repo/src/solver/stabilized_first_order_transient_sensitivity_solver.cpp.
    Global vectors and matrices are functions of dof numbers ([n] dofs).  The stored nonlinear
    solutions, the element assembly, the linear solver and the amplification estimate (norms, or
    SLEPc) are oracles.  Constraints (enforce_constraints_exactly) are not modelled. *)
From Coq Require Import Reals List Arith Bool.
From Verif Require Import Base.
Import ListNotations.
Open Scope R_scope.

Definition vec : Type := nat -> R.
Definition matrix : Type := nat -> nat -> R.
Definition vzero : vec := fun _ => 0.
Definition mzero : matrix := fun _ _ => 0.
(** NumericVector::add(a, x), SparseMatrix::add(a, X), MatScale *)
Definition addv (a : R) (x y : vec) : vec := fun i => y i + a * x i.
Definition scalev (a : R) (y : vec) : vec := fun i => a * y i.
Definition addm (a : R) (x y : matrix) : matrix := fun i j => y i j + a * x i j.
Definition scalem (a : R) (y : matrix) : matrix := fun i j => a * y i j.
Definition mul (n : nat) (A : matrix) (x : vec) : vec := fun i => sum n (fun j => A i j * x j).

(** data of the solver and of the system it works on *)
Record sstate : Type := mkS {
  s_t0 : R; s_time : R; s_index0 : nat; s_index1 : nat;
  s_Mavg : matrix; s_Jint : matrix; s_fint : vec;
  s_dsol0 : vec;    (* solution_sensitivity(1) *)
  s_dsol1 : vec     (* solution_sensitivity()  *) }.

Record sparams : Type := mkP { p_n : nat; p_dt : R; p_beta : R; p_max_amp : R; p_max_index : nat }.

Section Solve.
  Variable c : sparams.
  (** [mass i t], [jac i t], [force i t]: residual_and_jacobian with _assemble_mass true / false and
      sensitivity_assemble at the solution read from file number [i], time [t] (L139-170) *)
  Variables mass jac : nat -> R -> matrix.
  Variable force : nat -> R -> vec.
  Variable slv : matrix -> vec -> vec.                           (* linear_solver->solve, L205-210 *)
  Variable ampl : matrix -> matrix -> vec -> vec -> R.           (* L222-225 (M0, M1, rhs, M_avg dsol1) *)

  (** body of the while loop up to the amplification factor, L133-225 *)
  Definition trial (s : sstate) : sstate * R :=
    let dt := p_dt c in
    let Jint := addm dt (jac (s_index1 s) (s_time s)) (s_Jint s) in
    let Mavg := addm (dt / (s_time s - s_t0 s)) (mass (s_index1 s) (s_time s))
                  (scalem ((s_time s - s_t0 s - dt) / (s_time s - s_t0 s)) (s_Mavg s)) in
    let fint := addv dt (scalev (-1) (force (s_index1 s) (s_time s))) (s_fint s) in
    let rhs := addv 1 fint (mul (p_n c) Mavg (s_dsol0 s)) in
    let M1 := addm (p_beta c) Jint (addm 1 Mavg mzero) in
    let M0 := addm (-(1 - p_beta c)) Jint (addm 1 Mavg mzero) in
    let dsol1 := slv M1 rhs in
    (mkS (s_t0 s) (s_time s) (s_index0 s) (s_index1 s) Mavg Jint fint (s_dsol0 s) dsol1,
     ampl M0 M1 rhs (mul (p_n c) Mavg dsol1)).

  (** the while loop, L133-252 *)
  Fixpoint iterate (fuel : nat) (s : sstate) : outcome sstate :=
    match fuel with
    | O => Fault OutOfFuel
    | S k =>
        let '(s, amp) := trial s in
        if Rle_dec amp (p_max_amp c) then
          (* accepted: dsol0 is overwritten by dsol1, L235-238 *)
          Ok (mkS (s_t0 s) (s_time s) (s_index0 s) (s_index1 s) (s_Mavg s) (s_Jint s) (s_fint s)
                  (addv 1 (s_dsol1 s) vzero) (s_dsol1 s))
        else if Nat.ltb (p_max_index c) (s_index1 s) then
          (* rejected at the end of the time integration: zero, add dsol0, zero again, L241-243 *)
          Ok (mkS (s_t0 s) (s_time s) (s_index0 s) (s_index1 s) (s_Mavg s) (s_Jint s) (s_fint s)
                  (s_dsol0 s) vzero)
        else
          iterate k (mkS (s_t0 s) (s_time s + p_dt c) (s_index0 s) (S (s_index1 s))
                         (s_Mavg s) (s_Jint s) (s_fint s) (s_dsol0 s) (s_dsol1 s))
    end.

  (** sensitivity_solve, L80-256 *)
  Definition sensitivity_solve (fuel : nat) (s : sstate) : outcome sstate :=
    assert_ (if Rlt_dec 0 (p_max_amp c) then true else false)
    (assert_ (Nat.ltb 0 (p_max_index c))
    (iterate fuel (mkS (s_time s) (s_time s + p_dt c) (s_index1 s) (S (s_index1 s))
                       mzero mzero vzero (s_dsol0 s) (s_dsol1 s)))).

  (** evaluate_q_sens_for_previous_interval, L259-307.  [out k t dx] is the total output sensitivity at
      the nonlinear solution of file [k], time [t] and solution sensitivity [dx].  Returns the integral and
      the time left in the system. *)
  Variable out : nat -> R -> vec -> R.
  Definition evaluate_q_sens (s : sstate) : outcome (R * R) :=
    assert_ (Nat.ltb (s_index0 s) (s_index1 s))
    (let t1 := s_time s in
     loop (s_index1 s - s_index0 s) (fun k qt =>
       let t := s_t0 s + p_dt c * INR k in
       let eta := (t - s_t0 s) / (t1 - s_t0 s) in
       let dx := addv eta (s_dsol1 s) (addv (1 - eta) (s_dsol0 s) vzero) in
       Ok (fst qt + out (s_index1 s) t dx * p_dt c, t)) (0, s_time s)).
End Solve.
