(** Model of the eigenproblem for buckling, /repo/src/elasticity/structural_buckling_eigenproblem_assembly.cpp, its element operations,
    structural_buckling_eigenproblem_elem_operations.cpp, and the sensitivity of its eigenvalues,
    /repo/src/base/eigenproblem_assembly.cpp L185-291 and nonlinear_system.cpp L555-686.
    The Jacobians of the terms of a structural element are data.  [checked]: the assertions of libMesh are compiled in. *)
From Coq Require Import List Arith Bool Reals.
From Verif Require Import Base RBool Sens_Model Rom_Model Lei_Model.
Import ListNotations.
Open Scope R_scope.

(** parameters, value of the load parameter, local solution *)
Definition term : Type := params -> R -> vec -> matrix.
(** ... parameter, sensitivity of the local solution *)
Definition dterm : Type := params -> R -> nat -> vec -> vec -> matrix.
Record belem : Type := mkBe {
  be_dofs : list nat;
  be_int : term; be_pre : term; be_side : term; be_vol : term;
  be_dint : dterm; be_dpre : dterm; be_dside : dterm; be_dvol : dterm }.
(** elem_calculations, elem_operations.cpp L82-111: mat_A is zeroed, every term adds to it, mat_B is not touched *)
Definition bcalc (e : belem) (th : params) (lam : R) (s : vec) : matrix :=
  mat_plus (mat_plus (mat_plus (mat_plus mzero (be_int e th lam s)) (be_pre e th lam s)) (be_side e th lam s)) (be_vol e th lam s).
(** elem_sensitivity_calculations, L117-142 *)
Definition bdcalc (e : belem) (th : params) (lam : R) (f : nat) (s ds : vec) : matrix :=
  mat_plus (mat_plus (mat_plus (mat_plus mzero (be_dint e th lam f s ds)) (be_dpre e th lam f s ds)) (be_dside e th lam f s ds)) (be_dvol e th lam f s ds).

(** the data of the object; constructor L38-50, set_buckling_data L62-78, clear_discipline_and_system L81-93 *)
Record bset : Type := mkBset { bs_lin : bool; bs_l1 : R; bs_l2 : R; bs_sol : option (vec * vec) }.
Definition bset0 : bset := mkBset true 0 0 None.
Inductive bcall : Type := BData (lin : bool) (l1 l2 : R) (x1 x2 : vec) | BReset.
Definition bcall_step (s : bset) (c : bcall) : bset :=
  match c with BData lin l1 l2 x1 x2 => mkBset lin l1 l2 (Some (x1, x2)) | BReset => bset0 end.
Definition bcalls (l : list bcall) : bset := fold_left bcall_step l bset0.

Section Bck.
Variables (checked : bool) (C : sys) (th : params) (D : bset).
(** state of a process: an element object is held by the operations, how many were lost, value of the load parameter, both matrices *)
Record bproc : Type := mkBp { bp_held : bool; bp_lost : nat; bp_load : R; bp_A : matrix; bp_B : matrix }.
(** one element, L134-189: set_elem_data and init ask that no element is held, and nothing releases it; the list of dofs has been
    extended by the first constrain_element_matrix when the solution is read again, L175-176 *)
Definition bstep (x1 x2 : vec) (st : outcome bproc) (e : belem) : outcome bproc :=
  s <- st ;;
  if checked && bp_held s then Fault AssertFailed
  else
    let m1 := bcalc e th (bs_l1 D) (gather (be_dofs e) x1) in
    let A := add_matrix C (be_dofs e) m1 (bp_A s) in
    if negb (length (reached C (be_dofs e)) =? 0)%nat then Fault OutOfBounds
    else
      let m2 := bcalc e th (bs_l2 D) (gather (be_dofs e) x2) in
      let b := fun k l => -1 * m2 k l in
      let b := if bs_lin D then mat_plus b m1 else b in
      Ok (mkBp true (if bp_held s then S (bp_lost s) else bp_lost s) (bs_l2 D) A (add_matrix C (be_dofs e) b (bp_B s))).
(** eigenproblem_assemble, L97-194: processes one after the other, each with what its operations hold and its load parameter; the
    matrices are zeroed, L122-123 *)
Definition brank (x1 x2 : vec) (st : outcome (list (bool * nat * R) * matrix * matrix)) (rk : bool * R * list belem)
    : outcome (list (bool * nat * R) * matrix * matrix) :=
  s <- st ;;
  let '(done, A, B) := s in
  let '(held, load, es) := rk in
  p <- fold_left (bstep x1 x2) es (Ok (mkBp held 0 load A B)) ;;
  Ok (done ++ [(bp_held p, bp_lost p, bp_load p)], bp_A p, bp_B p).
Definition bassemble (rks : list (bool * R * list belem)) : outcome (list (bool * nat * R) * matrix * matrix) :=
  match bs_sol D with
  | None => Fault NullDeref
  | Some (x1, x2) => fold_left (brank x1 x2) rks (Ok ([], mzero, mzero))
  end.
(** critical_point_estimate_from_eigenproblem, L203-215 *)
Definition critical_estimate (v : R) : outcome R :=
  if bs_lin D then Ok (bs_l1 D + v * (bs_l2 D - bs_l1 D))
  else if reqb (1 + v) 0 then Fault DivByZero
  else Ok (bs_l1 D + v / (1 + v) * (bs_l2 D - bs_l1 D)).

(** ** sensitivity: that of EigenproblemAssembly, with the base solution and its sensitivity; mat_B stays zero *)
Definition bsens (held : bool) (load : R) (base dbase : option vec) (f : nat) (es : list belem) : outcome (matrix * matrix) :=
  if is_some base && negb (is_some dbase) then Fault AssertFailed
  else if checked && held && negb (length es =? 0)%nat then Fault AssertFailed
  else if existsb (fun e => negb (length (reached C (be_dofs e)) =? 0)%nat) es then Fault AssertFailed
  else Ok (fold_left (fun g e => add_matrix C (be_dofs e)
             (bdcalc e th load f (ebase base (be_dofs e)) (match base with Some _ => ebase dbase (be_dofs e) | None => zero end)) g) es mzero,
           fold_left (fun g e => add_matrix C (be_dofs e) mzero g) es mzero).
Definition beig_sens (held : bool) (load : R) (base dbase : option vec) (f : nat) (es : list belem) (MB : matrix) (v : R) (z : vec) : outcome R :=
  let denom := quadratic (n C) MB z in
  DE <- bsens held load base dbase f es ;;
  Ok ((quadratic (n C) (fst DE) z - v * quadratic (n C) (snd DE) z) / denom).
End Bck.
