(** Model of the eigenproblem of a structure cut by a level set,
    /repo/src/level_set/level_set_eigenproblem_assembly.cpp, with the element operations of
    /repo/src/elasticity/structural_modal_eigenproblem_assembly.cpp, and of the use the eigensolver makes of the matrices,
    /repo/src/base/nonlinear_system.cpp.
    The intersection (areas Isec, Refi), the element matrices and libMesh's constraints are data.  Vectors and matrices are
    functions of the index, reals stand for double. *)
From Coq Require Import List Arith Bool Reals.
From Verif Require Import Base Sens_Model Rom_Model.
Import ListNotations.
Open Scope R_scope.

(** What the element operations compute on one sub-element, or on the whole element: elem_calculations (structural_modal_eigenproblem_
    assembly.cpp L93-118), elem_sensitivity_calculations (L123-154: solution and its sensitivity, used if the flag says so) and
    elem_topology_sensitivity_calculations (L211-266: both matrices are zeroed, and filled if a side lies on the level set) *)
Record epart : Type := mkPart {
  pt_A : params -> vec -> matrix;
  pt_B : params -> vec -> matrix;
  pt_dA : params -> nat -> bool -> vec -> vec -> matrix;
  pt_dB : params -> nat -> bool -> vec -> vec -> matrix;
  pt_side : bool;
  pt_bA : params -> nat -> vec -> matrix;
  pt_bB : params -> nat -> vec -> matrix }.
Record ecell : Type := mkEcell {
  ec_dofs : list nat;
  ec_pos : params -> bool;                        (* if_elem_has_positive_phi_region *)
  ec_hi : params -> list epart;                   (* get_sub_elems_positive_phi *)
  ec_whole : epart }.                             (* the element itself *)
Record lei : Type := mkLei {
  le_cons : sys;                                  (* dofs and constraint rows; its elements are not used *)
  le_ranks : list (list ecell);
  le_set : bool;                                  (* _level_set (and _intersection) set *)
  le_vel : bool;                                  (* _velocity set *)
  le_topo : nat -> bool;                          (* f.is_topology_parameter() *)
  le_base : option vec;                           (* _base_sol *)
  le_dbase : option vec }.                        (* _base_sol_sensitivity *)

Definition mat_plus (a b : matrix) : matrix := fun k l => a k l + b k l.
Section Lei.
Variables (A : lei) (th : params).
Notation C := (le_cons A).
(** sol, L174-186 *)
Definition ebase (b : option vec) (ds : list nat) : vec := match b with Some X => gather ds X | None => zero end.
(** constrain_element_matrix of the second matrix with the list of dofs the first call has extended, L214-215, L362-363 (and
    eigenproblem_assembly.cpp L167-168): the sizes differ if the list grew *)
Definition grows (e : ecell) : bool := ec_pos e th && negb (length (reached C (ec_dofs e)) =? 0)%nat.
Definition eover {B} (step : B -> ecell -> B) (g : B) : B := fold_left (fun g rk => fold_left step rk g) (le_ranks A) g.
(** eigenproblem_assemble, L117-228: the loop over the sub-elements is commented out, L188-195 *)
Definition eassemble (m : epart -> params -> vec -> matrix) : matrix :=
  eover (fun g e => if ec_pos e th then add_matrix C (ec_dofs e) (m (ec_whole e) th (ebase (le_base A) (ec_dofs e))) g else g) mzero.
Definition cut_assemble : outcome (matrix * matrix) :=
  assert_ (le_set A)
  (if existsb grows (concat (le_ranks A)) then Fault AssertFailed
   else Ok (eassemble pt_A, eassemble pt_B)).

(** eigenproblem_sensitivity_assemble, L233-377.  One sub-element, L326-368 *)
Definition is_some {B} (o : option B) : bool := match o with Some _ => true | None => false end.
Definition sens_part (d : epart -> params -> nat -> bool -> vec -> vec -> matrix) (b : epart -> params -> nat -> vec -> matrix)
    (f : nat) (e : ecell) (g : matrix) (p : epart) : matrix :=
  let x := ebase (le_base A) (ec_dofs e) in
  let dx := match le_base A with Some _ => ebase (le_dbase A) (ec_dofs e) | None => zero end in
  let mat := d p th f (is_some (le_base A)) x dx in
  let mat := if le_topo A f then mat_plus mat (if pt_side p then b p th f x else mzero) else mat in
  add_matrix C (ec_dofs e) mat g.
Definition sens_assemble d b (f : nat) (g : matrix) : matrix :=
  eover (fun g e => if ec_pos e th then fold_left (sens_part d b f e) (ec_hi e th) g else g) g.
(** [oldB]: what is in the second matrix; only the first one is zeroed (L251).  With a base solution the boundary term is
    libmesh_assert(false), structural_modal_eigenproblem_assembly.cpp L261-262 *)
Definition cut_sensitivity (f : nat) (oldB : matrix) : outcome (matrix * matrix) :=
  if le_topo A f && negb (le_vel A) then Fault AssertFailed
  else if is_some (le_base A) && negb (is_some (le_dbase A)) then Fault AssertFailed
  else if negb (le_set A) && negb (length (concat (le_ranks A)) =? 0)%nat then Fault NullDeref
  else if le_topo A f && is_some (le_base A) &&
          existsb (fun e => ec_pos e th && existsb pt_side (ec_hi e th)) (concat (le_ranks A)) then Fault AssertFailed
  else if existsb (fun e => grows e && negb (length (ec_hi e th) =? 0)%nat) (concat (le_ranks A)) then Fault AssertFailed
  else Ok (sens_assemble pt_dA pt_bA f mzero, sens_assemble pt_dB pt_bB f oldB).
End Lei.

(** eigenproblem_sensitivity_solve of a generalised Hermitian problem, nonlinear_system.cpp L555-686: the matrices of the system are
    handed to the assembly after the denominator was taken, L626-670 *)
Definition quadratic (n : nat) (M : matrix) (x : vec) : R := sum n (fun i => x i * sum n (fun j => M i j * x j)).
Definition eigenvalue_sensitivity (A : lei) (th : params) (f : nat) (MB : matrix) (lambda : R) (x : vec) : outcome R :=
  let denom := quadratic (n (le_cons A)) MB x in
  DE <- cut_sensitivity A th f MB ;;
  Ok ((quadratic (n (le_cons A)) (fst DE) x - lambda * quadratic (n (le_cons A)) (snd DE) x) / denom).
