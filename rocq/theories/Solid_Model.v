(** Model of the continuum element MAST::StructuralElement3D, /repo/src/elasticity/solid_element_3d.cpp.
    The finite element data at the quadrature points (weights, positions, shape functions, gradients, side
    normals) are data of the model: libMesh and MAST::FEBase are not modelled.  The unknowns of an element are
    indexed by variable (0-2 displacements, 3-5 rotations) and node; the C++ flattens the pair (c, a) to
    c*n_phi + a, and topRows(3*n_phi), bottomRightCorner(3*n_phi, 3*n_phi) are the variables below and from 3.
    FEMOperatorMatrix is used through what its operations compute, see C01 - C03.  Three-dimensional elements
    have no local coordinate system, so local and global unknowns are the same.  The incompatible modes are
    commented out in the code modelled here (Gmat stays zero).  Values are exact reals. *)
From Coq Require Import List Arith Bool Reals.
From Verif Require Import Base.
Import ListNotations.
Open Scope R_scope.

(** one quadrature point of the element or of a side *)
Record qpt : Type := mkQ {
  jxw : R;
  xyz : nat -> R;
  phi : nat -> R;                    (* phi[node][qp] *)
  dphi : nat -> nat -> R;            (* dphi[node][qp](direction) *)
  nrm : nat -> R }.                  (* normal, for sides only *)

Definition dofs : Type := nat -> nat -> R.                  (* variable, node *)
Definition dmat : Type := nat -> nat -> nat -> nat -> R.    (* row variable, row node, column variable, node *)
Definition opr : Type := nat -> nat -> nat -> R.            (* FEMOperatorMatrix: row, variable, node *)
Definition rmat : Type := nat -> nat -> nat -> R.           (* matrix with a row index and dof columns *)
Definition vec3 : Type := nat -> R.

Section Element.
Variable n_phi : nat.               (* number of shape functions *)
Variable n_nodes : nat.             (* number of nodes of the element *)
Variable nonlinear : bool.          (* _property.strain_type() == NONLINEAR_STRAIN *)

(** set_shape_function(row, variable, derivative in direction dir); the operator is zero after reinit.  An entry
    of the list is (row, variable, direction), in the order of the calls. *)
Definition oset (B : opr) (r c : nat) (s : nat -> R) : opr :=
  fun r' c' a => if Nat.eqb r' r && Nat.eqb c' c then s a else B r' c' a.
Definition operator (q : qpt) (l : list (nat * nat * nat)) : opr :=
  fold_left (fun B e => oset B (fst (fst e)) (snd (fst e)) (fun a => dphi q a (snd e))) l (fun _ _ _ => 0).

(** FEMOperatorMatrix: vector_mult, vector_mult_transpose, left_multiply, right_multiply_transpose for an operator
    on three variables; [m] is the number of rows of the operator. *)
Definition vector_mult (B : opr) (u : dofs) (r : nat) : R := sum 3 (fun c => sum n_phi (fun a => B r c a * u c a)).
Definition vector_mult_transpose (m : nat) (B : opr) (v : nat -> R) : dofs := fun c a => sum m (fun r => B r c a * v r).
Definition left_multiply (m : nat) (B : opr) (A : nat -> nat -> R) : rmat := fun r c a => sum m (fun k => B k c a * A r k).
Definition right_multiply_transpose (m : nat) (B : opr) (A : rmat) : dmat := fun c a d b => sum m (fun r => B r c a * A r d b).

(** f.topRows(n2) += w * v and jac.topLeftCorner(n2, n2) += w * m *)
Definition addf (w : R) (v f : dofs) : dofs := fun c a => if Nat.ltb c 3 then f c a + w * v c a else f c a.
Definition addj (w : R) (m j : dmat) : dmat :=
  fun c a d b => if Nat.ltb c 3 && Nat.ltb d 3 then j c a d b + w * m c a d b else j c a d b.

(** a 6x3 matrix with given rows *)
Definition with_rows (l : list (nat * vec3)) : nat -> nat -> R :=
  fold_left (fun M e r k => if Nat.eqb r (fst e) then snd e k else M r k) l (fun _ _ => 0).

Record gl : Type := mkGL {
  epsilon : nat -> R; mat_x : nat -> nat -> R; mat_y : nat -> nat -> R; mat_z : nat -> nat -> R;
  B_lin : opr; B_x : opr; B_y : opr; B_z : opr; B_u : opr; B_v : opr; B_w : opr }.

(** L1308-1463 initialize_green_lagrange_strain_operator.  The operators and matrices are arguments of the C++
    function that keep their values between quadrature points; every entry that is ever set is set at every
    point, so they are rebuilt from zero here. *)
Definition green_lagrange (q : qpt) (u : dofs) : gl :=
  let Bl := operator q [(0,0,0); (3,1,0); (5,2,0); (1,1,1); (3,0,1); (4,2,1); (2,2,2); (4,1,2); (5,0,2)]%nat in
  if nonlinear then
    let Bx := operator q [(0,0,0); (1,1,0); (2,2,0)]%nat in
    let By := operator q [(0,0,1); (1,1,1); (2,2,1)]%nat in
    let Bz := operator q [(0,0,2); (1,1,2); (2,2,2)]%nat in
    let Bu := operator q [(0,0,0); (1,0,1); (2,0,2)]%nat in
    let Bv := operator q [(0,1,0); (1,1,1); (2,1,2)]%nat in
    let Bw := operator q [(0,2,0); (1,2,1); (2,2,2)]%nat in
    let dx := vector_mult Bx u in
    let dy := vector_mult By u in
    let dz := vector_mult Bz u in
    let F := fun i j : nat => match j with O => dx i | S O => dy i | _ => dz i end in
    let E := fun i j : nat => 1 / 2 * (F i j + F j i + sum 3 (fun k => F k i * F k j)) in
    let eps := fun r : nat => match r with
      | 0 => E 0%nat 0%nat | 1 => E 1%nat 1%nat | 2 => E 2%nat 2%nat
      | 3 => (E 0%nat 1%nat + E 1%nat 0%nat)%R | 4 => (E 1%nat 2%nat + E 2%nat 1%nat)%R
      | _ => (E 0%nat 2%nat + E 2%nat 0%nat)%R end%nat in
    mkGL eps (with_rows [(0%nat, dx); (3%nat, dy); (5%nat, dz)])
             (with_rows [(1%nat, dy); (3%nat, dx); (4%nat, dz)])
             (with_rows [(2%nat, dz); (4%nat, dy); (5%nat, dx)]) Bl Bx By Bz Bu Bv Bw
  else
    let z := fun _ _ _ : nat => 0 in
    let z2 := fun _ _ : nat => 0 in
    mkGL (vector_mult Bl u) z2 z2 z2 Bl z z z z z z.

(** mat.transpose() * stress and mat.transpose() * M *)
Definition tmulv (M : nat -> nat -> R) (s : nat -> R) : vec3 := fun k => sum 6 (fun r => M r k * s r).
Definition tmulm (M : nat -> nat -> R) (A : rmat) : rmat := fun k d b => sum 6 (fun r => M r k * A r d b).
(** material_mat * M *)
Definition mulm (C : nat -> nat -> R) (A : rmat) : rmat := fun r d b => sum 6 (fun s => C r s * A s d b).
(** mat4_33 from the stress vector *)
Definition stress33 (s : nat -> R) (i j : nat) : R :=
  match i, j with
  | 0, 0 => s 0 | 1, 1 => s 1 | 2, 2 => s 2
  | 0, 1 | 1, 0 => s 3 | 1, 2 | 2, 1 => s 4 | 0, 2 | 2, 0 => s 5 | _, _ => 0%R
  end%nat.

(** the force of a stress vector, L294-316: linear and nonlinear strain operators *)
Definition add_force (w : R) (g : gl) (s : nat -> R) (f : dofs) : dofs :=
  let f := addf w (vector_mult_transpose 6 (B_lin g) s) f in
  if nonlinear then
    let f := addf w (vector_mult_transpose 3 (B_x g) (tmulv (mat_x g) s)) f in
    let f := addf w (vector_mult_transpose 3 (B_y g) (tmulv (mat_y g) s)) f in
    addf w (vector_mult_transpose 3 (B_z g) (tmulv (mat_z g) s)) f
  else f.
(** the initial stress stiffness, L386-408 *)
Definition add_geometric (w : R) (g : gl) (s : nat -> R) (j : dmat) : dmat :=
  let j := addj w (right_multiply_transpose 3 (B_u g) (left_multiply 3 (B_u g) (stress33 s))) j in
  let j := addj w (right_multiply_transpose 3 (B_v g) (left_multiply 3 (B_v g) (stress33 s))) j in
  addj w (right_multiply_transpose 3 (B_w g) (left_multiply 3 (B_w g) (stress33 s))) j.
(** L331-346, the rows of a 6 x n2 matrix multiplied by the transposed nonlinear strain operators *)
Definition add_nl (w : R) (g : gl) (A : rmat) (j : dmat) : dmat :=
  let j := addj w (right_multiply_transpose 3 (B_x g) (tmulm (mat_x g) A)) j in
  let j := addj w (right_multiply_transpose 3 (B_y g) (tmulm (mat_y g) A)) j in
  addj w (right_multiply_transpose 3 (B_z g) (tmulm (mat_z g) A)) j.
(** L349-388, one direction of the loop *)
Definition add_dim (w : R) (g : gl) (C : nat -> nat -> R) (B : opr) (M : nat -> nat -> R) (j : dmat) : dmat :=
  let A := mulm C (left_multiply 3 B M) in
  let j := addj w (right_multiply_transpose 6 (B_lin g) A) j in
  add_nl w g A j.

(** L269-410 (and L637-778 with the derivative of the material): one quadrature point *)
Definition internal_qp (C : qpt -> nat -> nat -> R) (u : dofs) (req : bool) (fj : dofs * dmat) (q : qpt) : dofs * dmat :=
  let '(f, j) := fj in
  let g := green_lagrange q u in
  let w := jxw q in
  let s := fun r => sum 6 (fun k => C q r k * epsilon g k) in
  let f := add_force w g s f in
  if req then
    let A := left_multiply 6 (B_lin g) (C q) in
    let j := addj w (right_multiply_transpose 6 (B_lin g) A) j in
    if nonlinear then
      let j := add_nl w g A j in
      let j := add_dim w g (C q) (B_x g) (mat_x g) j in
      let j := add_dim w g (C q) (B_y g) (mat_y g) j in
      let j := add_dim w g (C q) (B_z g) (mat_z g) j in
      (f, add_geometric w g s j)
    else (f, j)
  else (f, j).

(** jac.diagonal().maxCoeff() of a matrix of 6*n_phi unknowns *)
Definition dof_list : list (nat * nat) := list_prod (seq 0 6) (seq 0 n_phi).
Definition max_diag (j : dmat) : R :=
  fold_right (fun d m => Rmax (j (fst d) (snd d) (fst d) (snd d)) m) (j 0 0 0 0)%nat dof_list.
(** L413-417: a small diagonal value for the rotational dofs *)
Definition regularize (j : dmat) : dmat :=
  let m := max_diag j in
  fun c a d b => if (Nat.leb 3 c && Nat.leb 3 d)%bool
                 then j c a d b + (if Nat.eqb c d && Nat.eqb a b then 1 else 0) * (1 / 10 ^ 20) * m else j c a d b.

(** the assertions of L1336-1350 at the first quadrature point: the operators are sized by the nodes *)
Definition checked {A} (qs : list qpt) (x : A) : outcome A :=
  match qs with [] => Ok x | _ => assert_ (Nat.eqb n_nodes n_phi) (Ok x) end.

(** L135-423 internal_residual; [C] is _property.stiffness_A_matrix at the quadrature points *)
Definition internal_residual (qs : list qpt) (C : qpt -> nat -> nat -> R) (u : dofs) (req : bool)
    (f : dofs) (j : dmat) : outcome (dofs * dmat) :=
  fj <- checked qs (fold_left (internal_qp C u req) qs (f, j)) ;;
  Ok (fst fj, if req then regularize (snd fj) else snd fj).
(** L566-788 internal_residual_sensitivity; [dC] is derivative(p, ...) of the same function *)
Definition internal_residual_sensitivity (qs : list qpt) (dC : qpt -> nat -> nat -> R) (u : dofs) (req : bool)
    (f : dofs) (j : dmat) : outcome (dofs * dmat) :=
  fj <- checked qs (fold_left (internal_qp dC u req) qs (f, j)) ;;
  Ok (fst fj, if req then regularize (snd fj) else snd fj).

(** L950-1089 thermal_residual; [A] is _property.thermal_expansion_A_matrix (one column), [dt] is the temperature
    minus the reference temperature *)
Definition thermal_qp (A : qpt -> nat -> R) (dt : qpt -> R) (u : dofs) (req : bool) (fj : dofs * dmat) (q : qpt) : dofs * dmat :=
  let '(f, j) := fj in
  let g := green_lagrange q u in
  let s := fun r => A q r * dt q in
  let f := add_force (- jxw q) g s f in
  if nonlinear && req then (f, add_geometric (- jxw q) g s j) else (f, j).
Definition thermal_residual (qs : list qpt) (A : qpt -> nat -> R) (dt : qpt -> R) (u : dofs) (req : bool)
    (f : dofs) (j : dmat) : outcome (dofs * dmat) :=
  checked qs (fold_left (thermal_qp A dt u req) qs (f, j)).
(** L1093-1103 *)
Definition thermal_residual_sensitivity : outcome (dofs * dmat) := Fault LibError.

(** L815-877 surface_pressure_residual; [follower] is the flag follower_forces *)
Definition surface_pressure_residual (follower : bool) (side : list qpt) (press : qpt -> R) (f : dofs) : outcome dofs :=
  assert_ (negb follower)
    (let local := fold_left (fun v q c a => v c a + jxw q * (phi q a * (press q * nrm q c))) side (fun _ _ => 0) in
     Ok (fun c a => if Nat.ltb c 3 then f c a - local c a else f c a)).
(** L882-945 surface_pressure_residual_sensitivity: all six variables, the force of the last three is zero *)
Definition surface_pressure_residual_sensitivity (follower : bool) (side : list qpt) (dpress : qpt -> R) (f : dofs) : outcome dofs :=
  assert_ (negb follower)
    (let force := fun q c => if Nat.ltb c 3 then dpress q * nrm q c else 0 in
     let local := fold_left (fun v q c a => v c a + jxw q * (phi q a * force q c)) side (fun _ _ => 0) in
     Ok (fun c a => f c a - local c a)).

(** L48-130 inertial_residual; [D] is _property.inertia_matrix; the result is f and jac_xddot.  xyz[0] is the first
    quadrature point: it is read before the loop with a diagonal mass, and at every point otherwise. *)
Definition inertial_residual (diagonal : bool) (qs : list qpt) (D : qpt -> nat -> nat -> R) (acc : dofs) (req : bool)
    (f : dofs) (jm : dmat) : outcome (dofs * dmat) :=
  match qs with
  | [] => if diagonal then Fault OutOfBounds else Ok (f, jm)
  | q0 :: _ =>
    if diagonal then
      let vol := fold_left (fun v q => v + jxw q) qs 0 / INR n_phi in
      let jm := fun c a d b => if Nat.ltb c 3 && Nat.eqb d c && Nat.eqb b a && Nat.ltb a n_phi then vol * D q0 c c else jm c a d b in
      Ok (fun c a => if Nat.ltb c 3 then sum 3 (fun d => sum n_phi (fun b => jm c a d b * acc d b)) else f c a, jm)
    else
      Ok (fold_left (fun fj q =>
            let v := fun r => sum 3 (fun c => sum n_phi (fun b => D q0 r c * phi q b * acc c b)) in
            (addf (jxw q) (fun c a => phi q a * v c) (fst fj),
             if req then addj (jxw q) (fun c a d b => phi q a * (D q0 c d * phi q b)) (snd fj) else snd fj)) qs (f, jm))
  end.

(** L1146-1265 calculate_stress without derivatives: the stress and strain entered for each quadrature point *)
Definition calculate_stress (qs : list qpt) (C : qpt -> nat -> nat -> R) (u : dofs) : outcome (list ((nat -> R) * (nat -> R))) :=
  checked qs (map (fun q =>
    let e := epsilon (green_lagrange q u) in
    (fun r => sum 6 (fun k => C q r k * e k), e)) qs).
End Element.
