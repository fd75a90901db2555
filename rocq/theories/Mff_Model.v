(** Model of base/mesh_field_function.{h,cpp} and base/complex_mesh_field_function.cpp: functions that
    interpolate a stored solution vector.

    A numeric vector is an object in a heap, with its parallel type and contents; the interpolation of libMesh is
    the sum of shape functions times entries ([shape] at a point for a variable and a dof, zero dofs outside the
    mesh being reported by [inside]).  Distribution of vectors over processes is not modelled: a clone holds all
    entries that the interpolation reads.  A call that throws leaves the object as it was at the throw, so a step
    returns the new state and, if it threw, the fault. *)
From Coq Require Import Reals List Arith Bool.
From Verif Require Import Base RBool.
Import ListNotations.
Open Scope R_scope.

Definition vec : Type := nat -> R.
(** libMesh::ParallelType, as far as it is distinguished *)
Inductive ptype := Serial | Ghosted | Parallel.
Definition ptype_eqb (a b : ptype) : bool :=
  match a, b with Serial, Serial | Ghosted, Ghosted | Parallel, Parallel => true | _, _ => false end.
Definition heap : Type := nat -> option (ptype * vec).
(** SolFunc, h:168-182: [None] while _func is null, otherwise what the mesh function reads: a clone or the vector
    handed in *)
Inductive source := Copy (v : vec) | Alias (id : nat).
Record mstate := mkM { m_heap : heap; m_fn : option (option source); m_pert : option (option source);
  m_sens : list (nat * source); m_use : bool; m_qp : vec }.

Section MeshField.
Variable n_vars n_dofs : nat.
Variable point : Type.
Variable inside : point -> bool.
Variable shape : point -> nat -> nat -> R.
Variable dshape : point -> nat -> nat -> nat -> R.
Variable p_type : ptype.
Variable dbg : bool.

(** constructors, cpp:29-56 *)
Definition fresh (h : heap) : mstate := mkM h None None [] false (fun _ => 0).

(** _init_sol_func, cpp:366-419: reuse keeps a pointer and asserts the type; a clone copies the entries *)
Definition init_sol_func (h : heap) (reuse : bool) (id : nat) : outcome source :=
  match h id with
  | None => Fault UseAfterFree
  | Some (ty, v) =>
      if reuse then if dbg && negb (ptype_eqb ty p_type) then Fault AssertFailed else Ok (Alias id)
      else match p_type with
           | Serial | Ghosted => Ok (Copy v)
           | Parallel => Fault LibError
           end
  end.
Fixpoint lookup {A} (f : nat) (l : list (nat * A)) : option A :=
  match l with [] => None | (g, a) :: l => if (f =? g)%nat then Some a else lookup f l end.
(** init, cpp:280-289: _function is set before the vector is looked at *)
Definition init (s : mstate) (id : nat) (reuse : bool) : mstate * option fault :=
  if dbg && (match m_fn s with Some _ => true | None => false end) then (s, Some AssertFailed) else
  match init_sol_func (m_heap s) reuse id with
  | Ok src => (mkM (m_heap s) (Some (Some src)) (m_pert s) (m_sens s) (m_use s) (m_qp s), None)
  | Fault e => (mkM (m_heap s) (Some None) (m_pert s) (m_sens s) (m_use s) (m_qp s), Some e)
  end.
(** init_sens, cpp:293-309: the entry of the map is written last *)
Definition init_sens (s : mstate) (f id : nat) (reuse : bool) : mstate * option fault :=
  if dbg && (match lookup f (m_sens s) with Some _ => true | None => false end) then (s, Some AssertFailed) else
  match init_sol_func (m_heap s) reuse id with
  | Ok src => (mkM (m_heap s) (m_fn s) (m_pert s) ((f, src) :: m_sens s) (m_use s) (m_qp s), None)
  | Fault e => (s, Some e)
  end.
(** clear, cpp:314-341 *)
Definition clear (s : mstate) : mstate := mkM (m_heap s) None None [] false (m_qp s).
(** set_/clear_element_quadrature_point_solution, cpp:345-362 *)
Definition set_qp (s : mstate) (v : vec) : mstate := mkM (m_heap s) (m_fn s) (m_pert s) (m_sens s) true v.
Definition clear_qp (s : mstate) : mstate := mkM (m_heap s) (m_fn s) (m_pert s) (m_sens s) false (fun _ => 0).
(** what the owner of the vectors does in between *)
Definition write (s : mstate) (id : nat) (v : vec) : mstate :=
  mkM (fun k => if (k =? id)%nat then match m_heap s k with Some (ty, _) => Some (ty, v) | None => None end else m_heap s k)
      (m_fn s) (m_pert s) (m_sens s) (m_use s) (m_qp s).
Definition release (s : mstate) (id : nat) : mstate :=
  mkM (fun k => if (k =? id)%nat then None else m_heap s k) (m_fn s) (m_pert s) (m_sens s) (m_use s) (m_qp s).

Inductive mop := OInit (id : nat) (reuse : bool) | OInitSens (f id : nat) (reuse : bool) | OClear
  | OSetQp (v : vec) | OClearQp | OWrite (id : nat) (v : vec) | ORelease (id : nat).
Definition mstep (s : mstate) (o : mop) : mstate * option fault :=
  match o with
  | OInit id r => init s id r
  | OInitSens f id r => init_sens s f id r
  | OClear => (clear s, None)
  | OSetQp v => (set_qp s v, None)
  | OClearQp => (clear_qp s, None)
  | OWrite id v => (write s id v, None)
  | ORelease id => (release s id, None)
  end.
(** a history; exceptions are caught by the caller *)
Definition mrun (s : mstate) (ops : list mop) : mstate := fold_left (fun s o => fst (mstep s o)) ops s.

(** the vector a SolFunc reads at the time of an evaluation *)
Definition contents (s : mstate) (src : source) : outcome vec :=
  match src with
  | Copy v => Ok v
  | Alias id => match m_heap s id with Some (_, v) => Ok v | None => Fault UseAfterFree end
  end.
(** libMesh::MeshFunction::operator() and gradient(); outside the mesh the result has size zero *)
Definition interpolate (v : vec) (p : point) : vec := fun i => sum n_dofs (fun a => shape p i a * v a).
Definition interpolate_grad (v : vec) (p : point) : nat -> nat -> R := fun i j => sum n_dofs (fun a => dshape p i a j * v a).
Definition eval (s : mstate) (src : source) (p : point) : outcome vec :=
  v <- contents s src ;;
  if inside p then Ok (fun i => if (i <? n_vars)%nat then interpolate v p i else 0)
  else if (n_vars =? 0)%nat then Ok (fun _ => 0) else Fault (if dbg then AssertFailed else OutOfBounds).
(** a matrix result with its numbers of rows and columns; [qn] is the size of the vector handed to set_qp *)
Definition eval_grad (s : mstate) (src : source) (p : point) : outcome (nat * nat * (nat -> nat -> R)) :=
  v <- contents s src ;;
  if inside p then Ok (n_vars, 3%nat, fun i j => if (i <? n_vars)%nat && (j <? 3)%nat then interpolate_grad v p i j else 0)
  else if (n_vars =? 0)%nat then Ok (0%nat, 3%nat, fun _ _ => 0) else Fault (if dbg then AssertFailed else OutOfBounds).
Definition with_fn {A} (fn : option (option source)) (k : source -> outcome A) : outcome A :=
  match fn with
  | None => Fault (if dbg then AssertFailed else NullDeref)
  | Some None => Fault NullDeref
  | Some (Some src) => k src
  end.
(** operator(), cpp:73-100 *)
Definition value (s : mstate) (p : point) : outcome vec :=
  if m_use s then Ok (m_qp s) else with_fn (m_fn s) (fun src => eval s src p).
(** gradient, cpp:104-134; the quadrature point solution becomes a matrix with one column *)
Definition gradient (s : mstate) (p : point) : outcome (nat * nat * (nat -> nat -> R)) :=
  if m_use s then Ok (n_vars, 1%nat, fun i _ => m_qp s i) else with_fn (m_fn s) (fun src => eval_grad s src p).
(** perturbation, cpp:138-167 *)
Definition perturbation (s : mstate) (p : point) : outcome vec :=
  if m_use s then Ok (m_qp s) else with_fn (m_pert s) (fun src => eval s src p).
(** perturbation_gradient, cpp:170-200: the assertion looks at _function, the evaluation at _perturbed_function *)
Definition perturbation_gradient (s : mstate) (p : point) : outcome (nat * nat * (nat -> nat -> R)) :=
  if m_use s then Ok (n_vars, 1%nat, fun i _ => m_qp s i) else
  if dbg && (match m_fn s with Some _ => false | None => true end) then Fault AssertFailed else
  match m_pert s with
  | Some (Some src) => eval_grad s src p
  | _ => Fault NullDeref
  end.
(** derivative, cpp:204-238 *)
Definition derivative (s : mstate) (f : nat) (p : point) : outcome vec :=
  if m_use s then Ok (m_qp s) else
  match lookup f (m_sens s) with
  | None => Fault (if dbg then AssertFailed else OutOfBounds)
  | Some src => eval s src p
  end.
(** derivative_gradient, cpp:242-276 *)
Definition derivative_gradient (s : mstate) (f : nat) (p : point) : outcome (nat * nat * (nat -> nat -> R)) :=
  if m_use s then Ok (n_vars, 1%nat, fun i _ => m_qp s i) else
  match lookup f (m_sens s) with
  | None => Fault (if dbg then AssertFailed else OutOfBounds)
  | Some src => eval_grad s src p
  end.
End MeshField.

(** ** ComplexMeshFieldFunction: both parts are always cloned *)
Record cstate := mkCS { c_heap : heap; c_fn : option (vec * vec); c_pert : option (vec * vec) }.
Section ComplexMeshField.
Variable n_vars n_dofs : nat.
Variable point : Type.
Variable inside : point -> bool.
Variable shape : point -> nat -> nat -> R.
Variable dbg : bool.
Definition read2 (h : heap) (re im : nat) : outcome (vec * vec) :=
  match h re, h im with Some (_, a), Some (_, b) => Ok (a, b) | _, _ => Fault UseAfterFree end.
(** init, cpp:57-107, and init_perturbation, cpp:112-161 *)
Definition c_init (s : cstate) (re im : nat) : cstate * option fault :=
  if dbg && (match c_fn s with Some _ => true | None => false end) then (s, Some AssertFailed) else
  match read2 (c_heap s) re im with
  | Ok x => (mkCS (c_heap s) (Some x) (c_pert s), None)
  | Fault e => (s, Some e)
  end.
Definition c_init_perturbation (s : cstate) (re im : nat) : cstate * option fault :=
  if dbg && (match c_pert s with Some _ => true | None => false end) then (s, Some AssertFailed) else
  match read2 (c_heap s) re im with
  | Ok x => (mkCS (c_heap s) (c_fn s) (Some x), None)
  | Fault e => (s, Some e)
  end.
(** clear, cpp:221-250 *)
Definition c_clear (s : cstate) : cstate := mkCS (c_heap s) None None.
Definition c_write (s : cstate) (id : nat) (v : vec) : cstate :=
  mkCS (fun k => if (k =? id)%nat then match c_heap s k with Some (ty, _) => Some (ty, v) | None => None end else c_heap s k) (c_fn s) (c_pert s).
Definition c_release (s : cstate) (id : nat) : cstate :=
  mkCS (fun k => if (k =? id)%nat then None else c_heap s k) (c_fn s) (c_pert s).
Inductive cop := CInit (re im : nat) | CPert (re im : nat) | CClear | CWrite (id : nat) (v : vec) | CRelease (id : nat).
Definition cstep (s : cstate) (o : cop) : cstate * option fault :=
  match o with
  | CInit a b => c_init s a b
  | CPert a b => c_init_perturbation s a b
  | CClear => (c_clear s, None)
  | CWrite id v => (c_write s id v, None)
  | CRelease id => (c_release s id, None)
  end.
Definition crun (s : cstate) (ops : list cop) : cstate := fold_left (fun s o => fst (cstep s o)) ops s.
(** operator(), cpp:166-186, and perturbation, cpp:192-212: real and imaginary parts of every variable *)
Definition c_eval (x : option (vec * vec)) (p : point) : outcome (nat -> R * R) :=
  match x with
  | None => Fault (if dbg then AssertFailed else NullDeref)
  | Some (a, b) =>
      if inside p then Ok (fun i => if (i <? n_vars)%nat then (interpolate n_dofs point shape a p i, interpolate n_dofs point shape b p i) else (0, 0))
      else if dbg then Fault AssertFailed else Ok (fun _ => (0, 0))
  end.
Definition c_value (s : cstate) (p : point) := c_eval (c_fn s) p.
Definition c_perturbation (s : cstate) (p : point) := c_eval (c_pert s) p.
End ComplexMeshField.
