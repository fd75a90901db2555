(** Model of the assembly of residual, Jacobian, outputs and their sensitivities, and of the direct and
    adjoint sensitivity solves:
    /repo/src/base/nonlinear_implicit_assembly.cpp, /repo/src/base/assembly_base.cpp,
    /repo/src/base/nonlinear_system.cpp.
    Global vectors and matrices are functions of the dof number; [n] dofs exist.  The finite elements, the
    point loads, the output and libMesh's constraint rows are data of the model; linear solvers are
    functions handed to it.  Values are exact reals.  A solution function (_sol_function) and a user's post
    assembly object are not modelled, and neither are transient elements. *)
From Coq Require Import List Arith Bool Reals.
From Verif Require Import Base.
Import ListNotations.
Open Scope R_scope.

Definition vec : Type := nat -> R.
Definition matrix : Type := nat -> nat -> R.
(** the values of the scalar parameters, by number *)
Definition params : Type := nat -> R.

(** What the assembly routines ask of one element and of the output on that element.  The number of local
    dofs is the length of [edofs]; the vector arguments are local. *)
Record elem : Type := mkElem {
  subdom : nat;                                  (* elem->subdomain_id() *)
  edofs : list nat;                              (* dof_map.dof_indices(elem, .) *)
  e_res : params -> vec -> vec;                  (* ops.elem_calculations: residual *)
  e_jac : params -> vec -> matrix;               (* ops.elem_calculations: Jacobian *)
  e_dres : params -> nat -> vec -> vec;          (* ops.elem_sensitivity_calculations(f, vec) *)
  e_topo : params -> nat -> vec -> vec;          (* ops.elem_topology_sensitivity_calculations(f, vec) *)
  q_here : bool;                                 (* output.if_evaluate_for_element *)
  e_q : params -> vec -> R;                      (* what output.evaluate() adds to the total *)
  e_qx : params -> vec -> vec;                   (* output.output_derivative_for_elem *)
  e_qp : params -> nat -> vec -> vec -> R }.     (* what output.evaluate_sensitivity(p) adds, given the
                                                    solution and its sensitivity *)

(** A point load: its nodes, each with its dof numbers, the load at a node, and its derivative;
    [p_size] = number of variables of the system (the size of [vec], cpp:195 and cpp:626). *)
Record pload : Type := mkLoad {
  p_nodes : list (nat * list nat);
  p_load : params -> nat -> vec;
  p_dload : params -> nat -> nat -> vec }.       (* func.derivative(f, node, ...) *)

(** One processor: its elements and its range of dofs [first_dof, end_dof). *)
Record rank : Type := mkRank { local : list elem; first_dof : nat; end_dof : nat }.

(** MAST::AssemblyBase::ElemParameterDependence: if_elem_depends_on_parameter and override_flag *)
Record pdep : Type := mkDep { depends : elem -> nat -> bool; override : bool }.

Record sys : Type := mkSys {
  n : nat;
  n_vars : nat;
  ranks : list rank;
  loads : list pload;
  diag : nat -> bool;                            (* diagonal_elem_subdomain_id.count(sid) *)
  row : nat -> option (list (nat * R));          (* libMesh's constraint row of a dof, if constrained *)
  is_topology : nat -> bool;                     (* f.is_topology_parameter() *)
  param_dep : option pdep }.                     (* _param_dependence *)

(** ** libMesh (external): constraints of element quantities.
    DofMap::constrain_element_vector and constrain_element_matrix transform with the matrix C whose row
    for a constrained dof holds its constraint coefficients, then clear the rows of constrained dofs; the
    matrix gets 1 on their diagonal and minus the coefficients beside it (asymmetric_constraint_rows is
    true by default).  Constraint rows are taken to be fully resolved, as libMesh's process_constraints
    leaves them.  The result is given as the contribution to the global vector or matrix, i.e. after
    add_vector / add_matrix with the extended dof list. *)
Definition coef (S : sys) (d i : nat) : R :=
  match row S d with
  | None => if (d =? i)%nat then 1 else 0
  | Some r => lsum (map (fun e => if (fst e =? i)%nat then snd e else 0) r)
  end.
Definition constrained (S : sys) (i : nat) : bool := match row S i with None => false | Some _ => true end.
Definition dof (ds : list nat) (k : nat) : nat := nth k ds O.
Definition add_vector (S : sys) (ds : list nat) (v : vec) (g : vec) : vec :=
  fun i => g i + (if constrained S i then 0 else sum (length ds) (fun k => v k * coef S (dof ds k) i)).
Definition add_matrix (S : sys) (ds : list nat) (m : matrix) (g : matrix) : matrix :=
  fun i j => g i j +
    (if constrained S i
     then if existsb (Nat.eqb i) ds then (if (i =? j)%nat then 1 else - coef S i j) else 0
     else sum (length ds) (fun k => sum (length ds) (fun l =>
            coef S (dof ds k) i * m k l * coef S (dof ds l) j))).
(** DofMap::enforce_constraints_exactly with homogeneous constraints (and enforce_adjoint_constraints_exactly
    with no heterogeneous adjoint values) *)
Definition enforce (S : sys) (x : vec) : vec :=
  fun i => match row S i with None => x i | Some r => lsum (map (fun e => snd e * x (fst e)) r) end.

Definition zero : vec := fun _ => 0.
Definition mzero : matrix := fun _ _ => 0.
Definition dot (m : nat) (a b : vec) : R := sum m (fun i => a i * b i).
(** sol(i) = X(dof_indices[i]) *)
Definition gather (ds : list nat) (X : vec) : vec := fun k => X (dof ds k).

Section Assembly.
Variables (S : sys) (th : params).

(** ** NonlinearImplicitAssembly::residual_and_jacobian, cpp:64-262 *)
(** cpp:111-186, one element *)
Definition res_elem (X : vec) (g : vec) (e : elem) : vec :=
  if diag S (subdom e) then g
  else add_vector S (edofs e) (e_res e th (gather (edofs e) X)) g.
Definition ident (c : R) : matrix := fun i j => if (i =? j)%nat then 1 * c else 0 * c.
Definition jac_elem (X : vec) (g : matrix) (e : elem) : matrix :=
  if diag S (subdom e)
  then add_matrix S (edofs e) (ident (/ 10 ^ 24)) g
  else add_matrix S (edofs e) (e_jac e th (gather (edofs e) X)) g.

(** cpp:189-243 (residual) and cpp:620-671 (sensitivity): one node of a point load, [v] its load vector *)
Definition load_node (rk : rank) (v : vec) (ds : list nat) (g : vec) : outcome vec :=
  let v := fun k => v k * (-1) in
  assert_ (length ds =? n_vars S)%nat
  (let v := fun k => if (dof ds k <? first_dof rk)%nat || (end_dof rk <=? dof ds k)%nat then 0 else v k in
   Ok (add_vector S ds v g)).
Fixpoint load_nodes (rk : rank) (f : nat -> vec) (ns : list (nat * list nat)) (g : vec) : outcome vec :=
  match ns with
  | [] => Ok g
  | (nd, ds) :: t => g <- load_node rk (f nd) ds g ;; load_nodes rk f t g
  end.
Fixpoint point_loads (rk : rank) (f : pload -> nat -> vec) (ls : list pload) (g : vec) : outcome vec :=
  match ls with
  | [] => Ok g
  | l :: t => g <- load_nodes rk (f l) (p_nodes l) g ;; point_loads rk f t g
  end.

(** what one processor adds to the residual *)
Definition res_rank (X : vec) (g : vec) (rk : rank) : outcome vec :=
  let g := fold_left (res_elem X) (local rk) g in
  point_loads rk (fun l => p_load l th) (loads S) g.
(** sum of the contributions of all processors, R->close() *)
Fixpoint over_ranks {A} (step : A -> rank -> outcome A) (rs : list rank) (g : A) : outcome A :=
  match rs with [] => Ok g | r :: t => g <- step g r ;; over_ranks step t g end.
Definition residual (X : vec) : outcome vec := over_ranks (res_rank X) (ranks S) zero.
Definition jacobian (X : vec) : matrix :=
  fold_left (fun g rk => fold_left (jac_elem X) (local rk) g) (ranks S) mzero.

(** ** NonlinearImplicitAssembly::sensitivity_assemble, cpp:515-683 *)
Definition sens_elem (f : nat) (X : vec) (g : vec) (e : elem) : vec :=
  if diag S (subdom e) then g
  else if match param_dep S with Some d => negb (depends d e f) | None => false end then g
  else let x := gather (edofs e) X in
       let v := e_dres e th f x in
       let v := if is_topology S f then fun k => v k + e_topo e th f x k else v in
       add_vector S (edofs e) v g.
Definition sens_rank (f : nat) (X : vec) (g : vec) (rk : rank) : outcome vec :=
  let g := fold_left (sens_elem f X) (local rk) g in
  point_loads rk (fun l => p_dload l th f) (loads S) g.
Definition sensitivity_assemble (f : nat) (X : vec) : outcome vec :=
  over_ranks (sens_rank f X) (ranks S) zero.

(** ** AssemblyBase: outputs, /repo/src/base/assembly_base.cpp *)
(** calculate_output, cpp:253-331; the output object starts from zero (zero_for_analysis), each element
    adds its part, the total is summed over the processors *)
Definition out_elem (X : vec) (q : R) (e : elem) : R :=
  if diag S (subdom e) then q
  else if negb (q_here e) then q
  else q + e_q e th (gather (edofs e) X).
Definition calculate_output (X : vec) : R :=
  fold_left (fun q rk => fold_left (out_elem X) (local rk) q) (ranks S) 0.

(** calculate_output_derivative, cpp:338-428 *)
Definition outd_elem (X : vec) (g : vec) (e : elem) : vec :=
  if diag S (subdom e) then g
  else if negb (q_here e) then g
  else add_vector S (edofs e) (e_qx e th (gather (edofs e) X)) g.
Definition calculate_output_derivative (X : vec) : vec :=
  fold_left (fun g rk => fold_left (outd_elem X) (local rk) g) (ranks S) zero.

(** calculate_output_direct_sensitivity, cpp:434-548; [dX = None] is a null dXdp *)
Definition outs_elem (f : nat) (X : vec) (dX : option vec) (q : R) (e : elem) : R :=
  if diag S (subdom e) then q
  else if match param_dep S with
          | Some d => negb (depends d e f) &&
                      match dX with None => true | Some _ => override d end
          | None => false end then q
  else if negb (q_here e) then q
  else q + e_qp e th f (gather (edofs e) X)
                 (match dX with Some d => gather (edofs e) d | None => zero end).
Definition calculate_output_direct_sensitivity (f : nat) (X : vec) (dX : option vec) : R :=
  fold_left (fun q rk => fold_left (outs_elem f X dX) (local rk) q) (ranks S) 0.

(** calculate_output_adjoint_sensitivity, cpp:555-589 *)
Definition calculate_output_adjoint_sensitivity (X adj : vec) (f : nat) (partial : bool) : outcome R :=
  dres <- sensitivity_assemble f X ;;
  let dq := dot (n S) adj dres in
  Ok (if partial then dq + calculate_output_direct_sensitivity f X None else dq).

(** calculate_output_adjoint_sensitivity_multiple_parameters_no_direct, cpp:594-640 *)
Fixpoint adjoint_multiple (X adj : vec) (ps : list nat) : outcome (list R) :=
  match ps with
  | [] => Ok []
  | p :: t => dres <- sensitivity_assemble p X ;;
              rest <- adjoint_multiple X adj t ;;
              Ok (dot (n S) adj dres :: rest)
  end.

(** ** NonlinearSystem::sensitivity_solve and adjoint_solve, /repo/src/base/nonlinear_system.cpp *)
(** The system holds its current solution and its matrix; [lin] is linear_solver->solve and [adj] is
    linear_solver->adjoint_solve. *)
Record state : Type := mkState { solution : vec; sysmat : matrix }.
(** cpp:741-793: the sensitivity solution, and the state afterwards *)
Definition sensitivity_solve (lin : matrix -> vec -> vec) (st : state) (X : vec) (p : nat)
    (if_assemble : bool) : outcome (vec * state) :=
  let st := if if_assemble then mkState (solution st) (jacobian X) else st in
  rhs <- sensitivity_assemble p X ;;
  let rhs := fun i => rhs i * (-1) in
  Ok (enforce S (lin (sysmat st) rhs), st).
(** cpp:798-845: the Jacobian is assembled at the stored solution, the output derivative at X *)
Definition adjoint_solve (adj : matrix -> vec -> vec) (st : state) (X : vec) (if_assemble : bool)
    : vec * state :=
  let st := if if_assemble then mkState (solution st) (jacobian (solution st)) else st in
  let rhs := calculate_output_derivative X in
  let rhs := fun i => rhs i * (-1) in
  (enforce S (adj (sysmat st) rhs), st).
End Assembly.
