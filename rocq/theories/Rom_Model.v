(** Model of the reduction of a structure to a few modes and of its generalised aerodynamic forces:
    /repo/src/elasticity/structural_fluid_interaction_assembly.cpp, fluid_structure_assembly_elem_operations.cpp and
    fsi_generalized_aero_force_assembly.cpp.
    Vectors and matrices are functions of the dof or row number.  Structural elements, the flow solver and libMesh's constraint
    rows (of a [sys], area Sens) are data.  A solution function (_sol_function) and the property card look-up of init() are not
    modelled.  Reals stand for double. *)
From Coq Require Import List Arith Bool Reals.
From Verif Require Import Base Sens_Model.
Import ListNotations.
Open Scope R_scope.

(** StructuralQuantityType, structural_fluid_interaction_assembly.h L33-39 *)
Inductive qty : Type := QMass | QDamping | QStiffness | QForce | QInvalid.
(** What a structural element computes: the matrices with respect to acceleration, velocity and solution, and their derivatives
    with respect to a parameter.  [r_jds]: internal_residual_jac_dot_state_sensitivity, given solution and its sensitivity.
    [r_aero]: the complex force of the frequency domain loads for given pressure data (L131-151). *)
Record relem : Type := mkRe {
  rdofs : list nat;
  r_int : params -> vec -> matrix;
  r_in : params -> vec -> matrix * matrix * matrix;
  r_side : params -> vec -> matrix * matrix;
  r_vol : params -> vec -> matrix * matrix;
  r_dint : params -> nat -> vec -> matrix;
  r_jds : params -> vec -> vec -> matrix;
  r_din : params -> nat -> vec -> matrix * matrix * matrix;
  r_dside : params -> nat -> vec -> matrix * matrix;
  r_dvol : params -> nat -> vec -> matrix * matrix;
  r_aero : params -> vec -> vec * vec -> vec * vec }.

Definition madd (a b : matrix) : matrix := fun i j => a i j + b i j.
Definition m1 (t : matrix * matrix * matrix) : matrix := fst (fst t).
Definition m2 (t : matrix * matrix * matrix) : matrix := snd (fst t).
Definition m3 (t : matrix * matrix * matrix) : matrix := snd t.

(** FluidStructureAssemblyElemOperations::elem_calculations, L75-129 *)
Definition elem_matrix (q : qty) (th : params) (x : vec) (e : relem) : outcome matrix :=
  match q with
  | QMass => Ok (m1 (r_in e th x))
  | QDamping => Ok (madd (madd (m2 (r_in e th x)) (fst (r_side e th x))) (fst (r_vol e th x)))
  | QStiffness => Ok (madd (madd (madd (r_int e th x) (m3 (r_in e th x))) (snd (r_side e th x))) (snd (r_vol e th x)))
  | _ => Fault LibError
  end.
(** elem_sensitivity_calculations, L156-226; [flag] = _base_sol *)
Definition elem_matrix_sens (q : qty) (th : params) (f : nat) (flag : bool) (x dx : vec) (e : relem) : outcome matrix :=
  match q with
  | QMass => Ok (m1 (r_din e th f x))
  | QDamping => Ok (madd (madd (m2 (r_din e th f x)) (fst (r_dside e th f x))) (fst (r_dvol e th f x)))
  | QStiffness =>
      let m := r_dint e th f x in
      let m := if flag then madd m (r_jds e th x dx) else m in
      Ok (madd (madd (madd m (m3 (r_din e th f x))) (snd (r_dside e th f x))) (snd (r_dvol e th f x)))
  | _ => Fault LibError
  end.

Section Reduction.
Variables (S : sys) (th : params).

(** ** libMesh (external): DofMap::constrain_element_matrix / constrain_element_vector in local numbering.  If a dof of the element
    is constrained, the list of dofs is extended by the dofs its constraint refers to, and the result has the extended size. *)
Definition reached (ds : list nat) : list nat :=
  nodup Nat.eq_dec (filter (fun j => negb (existsb (Nat.eqb j) ds))
    (flat_map (fun d => match row S d with Some r => map fst r | None => [] end) ds)).
Definition constrain_matrix (ds : list nat) (m : matrix) : list nat * matrix :=
  if existsb (constrained S) ds then
    let ds' := ds ++ reached ds in
    (ds', fun k l => let i := dof ds' k in let j := dof ds' l in
          if constrained S i then if (i =? j)%nat then 1 else - coef S i j
          else sum (length ds) (fun a => sum (length ds) (fun b => coef S (dof ds a) i * m a b * coef S (dof ds b) j)))
  else (ds, m).
Definition constrain_vector (ds : list nat) (v : vec) : list nat * vec :=
  if existsb (constrained S) ds then
    let ds' := ds ++ reached ds in
    (ds', fun k => let i := dof ds' k in
          if constrained S i then 0 else sum (length ds) (fun a => coef S (dof ds a) i * v a))
  else (ds, v).

(** basis_mat, L175-176: column j holds the entries of basis vector j *)
Definition basis_mat (basis : nat -> vec) (ds : list nat) : matrix := fun k j => basis j (dof ds k).
(** basis_mat^T mat basis_mat; the sizes have to fit (Eigen) *)
Definition project (basis : nat -> vec) (ds : list nat) (nr : nat) (m : matrix) : outcome matrix :=
  assert_ (nr =? length ds)%nat
  (Ok (fun a b => sum (length ds) (fun k => sum (length ds) (fun l => basis_mat basis ds k a * m k l * basis_mat basis ds l b)))).

(** the map of requested quantities, in the order of its keys *)
Fixpoint each (step : qty -> matrix -> outcome matrix) (l : list (qty * matrix)) : outcome (list (qty * matrix)) :=
  match l with
  | [] => Ok []
  | (q, m) :: t => m <- step q m ;; t <- each step t ;; Ok ((q, m) :: t)
  end.
Fixpoint for_elems {A} (step : relem -> A -> outcome A) (es : list relem) (a : A) : outcome A :=
  match es with [] => Ok a | e :: t => a <- step e a ;; for_elems step t a end.
(** sum over the processes, parallel_sum *)
Definition add_all (l1 l2 : list (qty * matrix)) : list (qty * matrix) :=
  map (fun p => (fst (fst p), madd (snd (fst p)) (snd (snd p)))) (combine l1 l2).
Fixpoint over_processes {A} (local : list relem -> outcome A) (plus : A -> A -> A) (zero : A) (rs : list (list relem)) : outcome A :=
  match rs with [] => Ok zero | r :: t => a <- local r ;; b <- over_processes local plus zero t ;; Ok (plus a b) end.

(** assemble_reduced_order_quantity, L103-222; [base] = _base_sol, [ops]: element operations attached *)
Definition at_base (base : option vec) (ds : list nat) : vec := match base with Some X => gather ds X | None => zero end.
Definition reduce_elem (base : option vec) (basis : nat -> vec) (e : relem) (acc : list (qty * matrix)) : outcome (list (qty * matrix)) :=
  each (fun q g =>
    m <- elem_matrix q th (at_base base (rdofs e)) e ;;
    let '(ds', m') := constrain_matrix (rdofs e) m in
    p <- project basis (rdofs e) (length ds') m' ;;
    Ok (madd g p)) acc.
Definition reduce_local (base : option vec) (basis : nat -> vec) (keys : list qty) (es : list relem) : outcome (list (qty * matrix)) :=
  for_elems (reduce_elem base basis) es (map (fun q => (q, mzero)) keys).
Definition reduced (ops : bool) (base : option vec) (basis : nat -> vec) (keys : list qty) (rs : list (list relem))
  : outcome (list (qty * matrix)) :=
  assert_ ops (over_processes (reduce_local base basis keys) add_all (map (fun q => (q, mzero)) keys) rs).

(** assemble_reduced_order_quantity_sensitivity, L228-389; [flag] = _base_sol of the element operations, which is set for the first
    dof of an element when there is a base solution, and never reset *)
Definition sens_step (f : nat) (base dbase : option vec) (basis : nat -> vec) (e : relem) (st : bool * list (qty * matrix))
  : outcome (bool * list (qty * matrix)) :=
  let flag := match base, rdofs e with Some _, _ :: _ => true | _, _ => fst st end in
  acc <- each (fun q g =>
    m <- elem_matrix_sens q th f flag (at_base base (rdofs e)) (at_base dbase (rdofs e)) e ;;
    let '(ds', m') := constrain_matrix (rdofs e) m in
    p <- project basis (rdofs e) (length ds') m' ;;
    Ok (madd g p)) (snd st) ;;
  Ok (flag, acc).
Definition sens_local (f : nat) (flag : bool) (base dbase : option vec) (basis : nat -> vec) (keys : list qty) (es : list relem)
  : outcome (list (qty * matrix)) :=
  r <- for_elems (sens_step f base dbase basis) es (flag, map (fun q => (q, mzero)) keys) ;; Ok (snd r).
Definition reduced_sens (f : nat) (flag : bool) (base dbase : option vec) (basis : nat -> vec) (keys : list qty) (rs : list (list relem))
  : outcome (list (qty * matrix)) :=
  match base, dbase with
  | Some _, None => Fault AssertFailed
  | Some _, _ => over_processes (sens_local f flag base dbase basis keys) add_all (map (fun q => (q, mzero)) keys) rs
  | None, _ => over_processes (sens_local f flag None None basis keys) add_all (map (fun q => (q, mzero)) keys) rs
  end.

(** assemble_generalized_aerodynamic_force_matrix, fsi_generalized_aero_force_assembly.cpp L119-279.  [flow p d]: the
    small-disturbance solution (real and imaginary part) for the surface moving with the real displacement d, or its sensitivity for
    parameter p.  Pairs are real and imaginary parts. *)
Definition force_elem (base : option vec) (basis : nat -> vec) (sol : vec * vec) (e : relem) (g : vec * vec) : outcome (vec * vec) :=
  let v := r_aero e th (at_base base (rdofs e)) sol in
  let '(d1, re) := constrain_vector (rdofs e) (fst v) in
  assert_ (length d1 =? length (rdofs e))%nat
  (let '(d2, im) := constrain_vector d1 (snd v) in
   assert_ (length d2 =? length (rdofs e))%nat
   (let p := fun (w : vec) j => sum (length (rdofs e)) (fun k => basis_mat basis (rdofs e) k j * w k) in
    Ok (fun j => fst g j + p re j, fun j => snd g j + p im j))).
Definition aero_matrix (flow : option nat -> vec -> vec * vec) (p : option nat) (base : option vec) (nb : nat) (basis : nat -> vec)
  (rs : list (list relem)) : outcome (matrix * matrix) :=
  if (nb =? 0)%nat then Fault OutOfBounds          (* localized_basis[0], L158 *)
  else loop nb (fun i (acc : matrix * matrix) =>
    c <- over_processes (fun es => for_elems (force_elem base basis (flow p (basis i))) es (zero, zero))
           (fun a b => (fun j => fst a j + fst b j, fun j => snd a j + snd b j)) (zero, zero) rs ;;
    Ok (fun a b => if (b =? i)%nat then fst c a else fst acc a b, fun a b => if (b =? i)%nat then snd c a else snd acc a b))
    (mzero, mzero).
End Reduction.

(** * attaching and detaching, fsi_generalized_aero_force_assembly.cpp L70-114.  The element operations, the flow solver and the flow
    assembly remember what they are attached to; numbers stand for objects. *)
Record world : Type := mkW {
  w_ops : option nat;                 (* _elem_ops of this assembly *)
  w_solver : option nat;              (* _fluid_complex_solver *)
  w_assembly : option nat;            (* _fluid_complex_assembly *)
  o_busy : nat -> bool;               (* AssemblyElemOperations::_assembly is set *)
  s_assembly : nat -> option nat;     (* ComplexSolverBase::_assembly *)
  a_ops : nat -> option nat }.        (* _elem_ops of a flow assembly *)
Definition set_elem_ops (o : nat) (cur : option nat) (busy : nat -> bool) : outcome (option nat * (nat -> bool)) :=
  match cur with Some _ => Fault AssertFailed | None => assert_ (negb (busy o)) (Ok (Some o, upd busy o true)) end.
Definition clear_elem_ops (cur : option nat) (busy : nat -> bool) : option nat * (nat -> bool) :=
  match cur with Some o => (None, upd busy o false) | None => (None, busy) end.
Definition fsi_init (o s a fo : nat) (w : world) : outcome world :=
  match w_solver w with Some _ => Fault AssertFailed | None =>
    r <- set_elem_ops o (w_ops w) (o_busy w) ;;
    match s_assembly w s with Some _ => Fault AssertFailed | None =>
      r2 <- set_elem_ops fo (a_ops w a) (snd r) ;;
      Ok (mkW (fst r) (Some s) (Some a) (snd r2) (upd (s_assembly w) s (Some a)) (upd (a_ops w) a (fst r2)))
    end end.
Definition fsi_clear (w : world) : outcome world :=
  match w_assembly w, w_solver w with
  | Some a, Some s =>
      let r := clear_elem_ops (a_ops w a) (o_busy w) in
      match s_assembly w s with
      | None => Fault NullDeref
      | Some _ =>
          (* L107: _elem_ops = nullptr, then clear_elem_operation_object() finds nothing to clear, L113 *)
          let r2 := clear_elem_ops None (snd r) in
          Ok (mkW (fst r2) None None (snd r2) (upd (s_assembly w) s None) (upd (a_ops w) a (fst r)))
      end
  | _, _ => Fault NullDeref
  end.
