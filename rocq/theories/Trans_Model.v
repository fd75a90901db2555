(** Model of the transient solvers, /repo/src/solver/transient_solver_base.cpp,
    first_order_newmark_transient_solver.cpp, second_order_newmark_transient_solver.cpp,
    generalized_alpha_transient_solver.cpp.
    Global vectors are functions from dof numbers to reals; every NumericVector operation used is
    pointwise.  Parallel distribution, ghosting and constraints are not modelled. *)
From Coq Require Import Reals List Arith Bool.
From Verif Require Import Base.
Import ListNotations.
Open Scope R_scope.

Definition vec : Type := nat -> R.
Definition vzero : vec := fun _ => 0.
(** NumericVector::add(a, x), ::scale(a) *)
Definition addv (a : R) (x y : vec) : vec := fun i => y i + a * x i.
Definition scalev (a : R) (y : vec) : vec := fun i => a * y i.

(** ** Update formulas *)
Inductive scheme : Type := First (beta : R) | Second (beta gamma : R).
Definition order2 (k : scheme) : bool := match k with First _ => false | Second _ _ => true end.

(** update_velocity, first_order:149-164; second_order:161-177 *)
Definition update_velocity (k : scheme) (dt : R) (x0 v0 a0 x : vec) : vec :=
  match k with
  | First beta => addv (-(1 - beta) / beta) v0 (scalev (1 / beta / dt) (addv (-1) x0 x))
  | Second beta gamma =>
      addv ((1 - gamma / 2 / beta) * dt) a0
        (addv (1 - gamma / beta) v0 (scalev (gamma / beta / dt) (addv (-1) x0 x)))
  end.
(** update_acceleration, second_order:182-199.  First order: asserts false in the
    header, never called because _ode_order is 1. *)
Definition update_acceleration (k : scheme) (dt : R) (x0 v0 a0 x : vec) : vec :=
  match k with
  | First _ => vzero
  | Second beta gamma =>
      addv (-(1/2 - beta) / beta) a0
        (addv (-1 / beta / dt) v0 (scalev (1 / beta / dt / dt) (addv (-1) x0 x)))
  end.
(** update_sensitivity_velocity, first_order:168-184, second_order:203-220: reads the sensitivity vectors *)
Definition update_sensitivity_velocity (k : scheme) (dt : R) (x0 v0 a0 x : vec) : vec :=
  match k with
  | First beta => addv (-(1 - beta) / beta) v0 (scalev (1 / beta / dt) (addv (-1) x0 x))
  | Second beta gamma =>
      addv ((1 - gamma / 2 / beta) * dt) a0
        (addv (1 - gamma / beta) v0 (scalev (gamma / beta / dt) (addv (-1) x0 x)))
  end.
(** update_sensitivity_acceleration, second_order:224-241 *)
Definition update_sensitivity_acceleration (k : scheme) (dt : R) (x0 v0 a0 x : vec) : vec :=
  match k with
  | First _ => vzero
  | Second beta gamma =>
      addv (-(1/2 - beta) / beta) a0
        (addv (-1 / beta / dt) v0 (scalev (1 / beta / dt / dt) (addv (-1) x0 x)))
  end.
(** update_delta_velocity, first_order:188-196, second_order:246-255 *)
Definition update_delta_velocity (k : scheme) (dt : R) (dx : vec) : vec :=
  match k with
  | First beta => scalev (1 / beta / dt) dx
  | Second beta gamma => scalev (gamma / beta / dt) dx
  end.
(** update_delta_acceleration, second_order:260-269 *)
Definition update_delta_acceleration (k : scheme) (dt : R) (dx : vec) : vec :=
  match k with
  | First _ => vzero
  | Second beta gamma => scalev (1 / beta / dt / dt) dx
  end.

(** ** History vectors *)
(** One family of stored vectors (solution/velocity/acceleration or their sensitivities), slot 0 is the
    current one.  transient_solver_base.cpp:87-140, 197-300 *)
Record hist : Type := mkHist { hx : nat -> vec; hv : nat -> vec; ha : nat -> vec }.
Definition put (h : nat -> vec) (k : nat) (x : vec) : nat -> vec :=
  fun i => if Nat.eqb i k then x else h i.

(** for (i = n-1; i>0; i--) q(i) = q(i-1), in place: 404-413, 753-761 and the sensitivity versions *)
Fixpoint shift (i : nat) (q : nat -> vec) : nat -> vec :=
  match i with O => q | S j => shift j (put q (S j) (q j)) end.
Definition shift_all (o2 : bool) (n : nat) (h : hist) : hist :=
  mkHist (shift (n - 1) (hx h)) (shift (n - 1) (hv h)) (if o2 then shift (n - 1) (ha h) else ha h).

Record tsolver : Type := mkT {
  kind : scheme; n_store : nat;
  st : hist; sens : hist;
  time : R; dt : R;
  first_step : bool; first_sens_step : bool }.

Definition new_solver (k : scheme) (n : nat) (x : vec) (t : R) : tsolver :=
  mkT k n (mkHist (fun i => match i with O => x | _ => vzero end) (fun _ => vzero) (fun _ => vzero))
      (mkHist (fun _ => vzero) (fun _ => vzero) (fun _ => vzero)) t 0 true true.

(** slot 0 := (x, updated velocity, updated acceleration): advance_time_step 746-751,
    build_local_quantities 538-585 (not the highest-derivative solution) *)
Definition load0 (k : scheme) (dt : R) (h : hist) (x : vec) : hist :=
  let hx' := put (hx h) 0 x in
  let hv' := put (hv h) 0 (update_velocity k dt (hx' 1%nat) (hv h 1%nat) (ha h 1%nat) x) in
  let ha' := if order2 k
             then put (ha h) 0 (update_acceleration k dt (hx' 1%nat) (hv' 1%nat) (ha h 1%nat) x)
             else ha h in
  mkHist hx' hv' ha'.
(** advance_time_step_with_sensitivity 776-781 *)
Definition load0_sens (k : scheme) (dt : R) (h : hist) (x : vec) : hist :=
  let hx' := put (hx h) 0 x in
  let hv' := put (hv h) 0 (update_sensitivity_velocity k dt (hx' 1%nat) (hv h 1%nat) (ha h 1%nat) x) in
  let ha' := if order2 k
             then put (ha h) 0 (update_sensitivity_acceleration k dt (hx' 1%nat) (hv' 1%nat) (ha h 1%nat) x)
             else ha h in
  mkHist hx' hv' ha'.
(** highest derivative -= dvec: 372-391, 463-482 *)
Definition correct0 (k : scheme) (h : hist) (dvec : vec) : hist :=
  if order2 k then mkHist (hx h) (hv h) (put (ha h) 0 (addv (-1) dvec (ha h 0%nat)))
  else mkHist (hx h) (put (hv h) 0 (addv (-1) dvec (hv h 0%nat))) (ha h).

Inductive top : Type :=
| SetDt (r : R)                               (* the public member dt *)
| SetInitial (x v : vec)                      (* the user fills solution(0) and velocity(0) *)
| Eval (x : vec)                              (* the nonlinear solver evaluates the residual at x *)
| Advance (x : vec) (incr : bool)             (* converged solution x, advance_time_step(incr) *)
| Highest (dvec : vec) (incr : bool)          (* solve_highest_derivative_and_advance_time_step *)
| AdvanceSens (x : vec)                       (* sensitivity solution x, advance_..._with_sensitivity *)
| HighestSens (dvec : vec)                    (* solve_highest_..._with_sensitivity *)
| Reattach.                                   (* set_elem_operation_object: 87-140 *)

Definition tstep (s : tsolver) (o : top) : outcome tsolver :=
  let '(mkT k n h hs t d f fs) := s in
  match o with
  | SetDt r => Ok (mkT k n h hs t r f fs)
  | SetInitial x v => Ok (mkT k n (mkHist (put (hx h) 0 x) (put (hv h) 0 v) (ha h)) hs t d f fs)
  | Eval x => assert_ (Nat.ltb 1 n) (Ok (mkT k n (load0 k d h x) hs t d f fs))
  | Advance x incr => assert_ (Nat.ltb 1 n)
      (Ok (mkT k n (shift_all (order2 k) n (load0 k d h x)) hs (if incr then t + d else t) d false fs))
  | Highest dv incr => assert_ f
      (Ok (mkT k n (shift_all (order2 k) n (correct0 k h dv)) hs (if incr then t + d else t) d false fs))
  | AdvanceSens x => assert_ (Nat.ltb 1 n)
      (Ok (mkT k n h (shift_all (order2 k) n (load0_sens k d hs x)) (t + d) d f false))
  | HighestSens dv => assert_ fs
      (Ok (mkT k n h (shift_all (order2 k) n (correct0 k hs dv)) (t + d) d f false))
  (* the vectors are removed and added again (zero); solution(0) is the system's own vector.
     _first_step is set, _first_sensitivity_step is not *)
  | Reattach => Ok (mkT k n
      (mkHist (fun i => match i with O => hx h 0%nat | _ => vzero end) (fun _ => vzero)
              (if order2 k then fun _ => vzero else ha h))
      (mkHist (fun _ => vzero) (fun _ => vzero) (if order2 k then fun _ => vzero else ha hs))
      t d true fs)
  end.
Fixpoint trun (s : tsolver) (ops : list top) : outcome tsolver :=
  match ops with [] => Ok s | o :: r => s' <- tstep s o ;; trun s' r end.

(** ** Element contributions *)
(** What the element operations return for the state, velocity and acceleration set on the element:
    TransientAssemblyElemOperations::elem_calculations *)
Record elemops : Type := mkOps {
  nd : nat; dofs : nat -> nat;
  fm : vec -> vec -> vec -> vec;               (* mass vector *)
  fx : vec -> vec -> vec;                      (* forcing vector *)
  jmdd : vec -> vec -> vec -> nat -> nat -> R; (* Jac of mass wrt x_dotdot *)
  jmd : vec -> vec -> vec -> nat -> nat -> R;  (* Jac of mass wrt x_dot *)
  jm : vec -> vec -> vec -> nat -> nat -> R;   (* Jac of mass wrt x *)
  jxd : vec -> vec -> nat -> nat -> R;         (* Jac of forcing wrt x_dot *)
  jx : vec -> vec -> nat -> nat -> R;          (* Jac of forcing wrt x *)
  jprod : vec -> vec -> vec -> vec -> vec -> vec -> vec
    (* linearized_jacobian_solution_product for perturbed state, velocity, acceleration *) }.

(** the generalised-alpha parameters; (0,0) for the Newmark solvers *)
(** set_element_data: second_order:45-78 (am = af = 0), generalized_alpha:67-105 *)
Definition local (e : elemops) (g : vec) : vec := fun i => g (dofs e i).
Definition blend (al : R) (cur prev : vec) : vec := fun i => (1 - al) * cur i + al * prev i.

(** elem_calculations, first_order:204-279: residual and Jacobian for new global state [x] *)
Definition first_residual (beta dt : R) (e : elemops) (h : hist) (x : vec) : vec :=
  let v := update_velocity (First beta) dt (hx h 1%nat) (hv h 1%nat) (ha h 1%nat) x in
  fun i => fm e (local e x) (local e v) vzero i + fx e (local e x) (local e v) i.
Definition first_jacobian (beta dt : R) (e : elemops) (h : hist) (x : vec) (i j : nat) : R :=
  let v := update_velocity (First beta) dt (hx h 1%nat) (hv h 1%nat) (ha h 1%nat) x in
  (1 / beta / dt) * jmd e (local e x) (local e v) vzero i j +
  (jm e (local e x) (local e v) vzero i j + jx e (local e x) (local e v) i j).
(** highest-derivative branch, state and velocity are the stored ones (build_local_quantities 541-567) *)
Definition first_high_residual (e : elemops) (h : hist) (v : vec) : vec :=
  fun i => fm e (local e (hx h 0%nat)) (local e v) vzero i + fx e (local e (hx h 0%nat)) (local e v) i.
Definition first_high_jacobian (e : elemops) (h : hist) (v : vec) (i j : nat) : R :=
  jmd e (local e (hx h 0%nat)) (local e v) vzero i j.
(** elem_sensitivity_contribution_previous_timestep, first_order:323-354 *)
Definition first_prev_sens (beta dt : R) (e : elemops) (x v : vec) (xs0 vs0 : vec) : vec :=
  fun i => -1 * sum (nd e) (fun j => jmd e x v vzero i j *
      ((1 / beta / dt) * local e xs0 j + (1 - beta) / beta * local e vs0 j)).

(** elem_calculations, second_order:277-375 (am = af = 0) and generalized_alpha:195-298 *)
Definition second_residual (beta gamma am af dt : R) (e : elemops) (h : hist) (x : vec) : vec :=
  let v := update_velocity (Second beta gamma) dt (hx h 1%nat) (hv h 1%nat) (ha h 1%nat) x in
  let a := update_acceleration (Second beta gamma) dt (hx h 1%nat) (hv h 1%nat) (ha h 1%nat) x in
  let xe := local e (blend af x (hx h 1%nat)) in
  let ve := local e (blend af v (hv h 1%nat)) in
  let ae := local e (blend am a (ha h 1%nat)) in
  fun i => fm e xe ve ae i + fx e xe ve i.
Definition second_jacobian (beta gamma am af dt : R) (e : elemops) (h : hist) (x : vec) (i j : nat) : R :=
  let v := update_velocity (Second beta gamma) dt (hx h 1%nat) (hv h 1%nat) (ha h 1%nat) x in
  let a := update_acceleration (Second beta gamma) dt (hx h 1%nat) (hv h 1%nat) (ha h 1%nat) x in
  let xe := local e (blend af x (hx h 1%nat)) in
  let ve := local e (blend af v (hv h 1%nat)) in
  let ae := local e (blend am a (ha h 1%nat)) in
  (1 / beta / dt / dt) * (1 - am) * jmdd e xe ve ae i j +
  (gamma / beta / dt) * (1 - af) * (jmd e xe ve ae i j + jxd e xe ve i j) +
  (1 - af) * (jm e xe ve ae i j + jx e xe ve i j).
(** the same as functions of the acceleration in the highest-derivative solve *)
Definition second_high_residual (am af : R) (e : elemops) (h : hist) (a : vec) : vec :=
  let xe := local e (blend af (hx h 0%nat) (hx h 1%nat)) in
  let ve := local e (blend af (hv h 0%nat) (hv h 1%nat)) in
  let ae := local e (blend am a (ha h 1%nat)) in
  fun i => fm e xe ve ae i + fx e xe ve i.
Definition second_high_jacobian (am af : R) (e : elemops) (h : hist) (a : vec) (i j : nat) : R :=
  let xe := local e (blend af (hx h 0%nat) (hx h 1%nat)) in
  let ve := local e (blend af (hv h 0%nat) (hv h 1%nat)) in
  let ae := local e (blend am a (ha h 1%nat)) in
  jmdd e xe ve ae i j.
(** elem_linearized_jacobian_solution_product with the perturbed data of
    build_perturbed_local_quantities 655-732 and set_element_perturbed_data
    (second_order:121-155, generalized_alpha:157-188: neither blends) *)
Definition second_product (beta gamma am af dt : R) (e : elemops) (h : hist) (x dx : vec) : vec :=
  let k := Second beta gamma in
  let v := update_velocity k dt (hx h 1%nat) (hv h 1%nat) (ha h 1%nat) x in
  let a := update_acceleration k dt (hx h 1%nat) (hv h 1%nat) (ha h 1%nat) x in
  jprod e (local e (blend af x (hx h 1%nat))) (local e (blend af v (hv h 1%nat)))
          (local e (blend am a (ha h 1%nat)))
          (local e dx) (local e (update_delta_velocity k dt dx)) (local e (update_delta_acceleration k dt dx)).

(** ** GeneralizedAlphaTransientSolver::update_coefficient, generalized_alpha:47-61 *)
Record alpha_coeffs : Type := mkAlpha { alpha_m : R; alpha_f : R; ga_gamma : R; ga_beta : R }.
Definition update_coefficient (rho_inf : R) : alpha_coeffs :=
  let am := (2 * rho_inf - 1) / (rho_inf + 1) in
  let af := rho_inf / (rho_inf + 1) in
  mkAlpha am af (1/2 - am + af) (1/4 * (1 - am + af)^2).
