(** Model of the beam element MAST::StructuralElement1D, /repo/src/elasticity/structural_element_1d.cpp, and of its two
    bending operators, timoshenko_bending_operator.cpp and bernoulli_bending_operator.h.  The finite element data at the
    quadrature points are data of the model, and dphi(.)(0) is the derivative along the axis of the element.  Section
    stiffness matrices are data at the quadrature points; the cards that compute them are modelled in Sect_Model.
    calculate_stress, piston theory and the velocity terms are not modelled here.  Values are exact reals. *)
From Coq Require Import List Arith Bool Reals.
From Verif Require Import Base RBool Solid_Model Dof6_Model.
Import ListNotations.
Open Scope R_scope.

(** MAST::NO_BENDING, or an operator of bending_operator.cpp L45-68; [BERNOULLI L xi]: length of the element and
    reference coordinate of the quadrature points *)
Inductive bending : Type := NO_BENDING | BERNOULLI (L : R) (xi : qpt -> R) | TIMOSHENKO.
Definition bends (b : bending) : bool := match b with NO_BENDING => false | _ => true end.
(** include_transverse_shear_energy: timoshenko_bending_operator.h, bernoulli_bending_operator.h L50 *)
Definition shears (b : bending) : bool := match b with TIMOSHENKO => true | _ => false end.

Definition pair2 (x y : R) (a : nat) : R := match a with O => x | S O => y | _ => 0 end.
Definition scal (s : R) (v : nat -> R) (a : nat) : R := v a * s.

(** timoshenko_bending_operator.cpp L58-83 and bernoulli_bending_operator.h L108-153
    initialize_bending_strain_operator_for_yz.  The shape functions of the second have two entries. *)
Definition bend_yz (b : bending) (q : qpt) (y z : R) : opr * opr :=
  match b with
  | NO_BENDING => (zop, zop)
  | TIMOSHENKO => (oset zop 0 5 (scal (- y) (fun a => dphi q a 0%nat)), oset zop 0 4 (scal z (fun a => dphi q a 0%nat)))
  | BERNOULLI L xi =>
      let x := xi q in
      let d := pair2 (1 / 2 / L * (0 + 12 / L * x)) (1 / 2 / L * (0 - 12 / L * x)) in
      let r := pair2 (1 / 2 / L * (- 2 + 6 * x)) (1 / 2 / L * (2 + 6 * x)) in
      (oset (oset zop 0 1 (scal (- y) d)) 0 5 (scal (- y) r), oset (oset zop 0 2 (scal (- z) d)) 0 4 (scal z r))
  end.
(** initialize_bending_strain_operator: y = z = 1 *)
Definition bend (b : bending) (q : qpt) : opr * opr := bend_yz b q 1 1.

Section Element.
Variable n : nat.                  (* n_phi *)
Variable vk : bool.                (* _property.strain_type() == NONLINEAR_STRAIN *)
Variable b : bending.              (* _property.bending_model(_elem) *)
Variable t : frame.                (* axes of the element *)

(** structural_element_1d.cpp L55-77 *)
Definition direct (q : qpt) : opr :=
  let s := fun a => dphi q a 0%nat in oset (oset zop 0 0 s) 1 3 s.
(** L82-124: the operators, dv/dx, dw/dx and the von Karman strain; L127-160 with _local_sol_sens gives the same
    derivatives of the sensitivity *)
Definition vk_v (q : qpt) : opr := oset zop 0 1 (fun a => dphi q a 0%nat).
Definition vk_w (q : qpt) : opr := oset zop 0 2 (fun a => dphi q a 0%nat).
Definition slope (q : qpt) (u : dofs) (c : nat) : R := sum n (fun a => dphi q a 0%nat * u c a).
Definition vk_strain (q : qpt) (u : dofs) (r : nat) : R := match r with
  | O => 1 / 2 * (slope q u 1 * slope q u 1 + slope q u 2 * slope q u 2) | _ => 0 end.

(** stiffness matrices A, B and D of the section *)
Record sect : Type := mkS { sA : nat -> nat -> R; sB : nat -> nat -> R; sD : nat -> nat -> R }.

(** L1044-1280 _internal_residual_operation *)
Definition internal_qp (S : qpt -> sect) (u : dofs) (req : bool) (fj : dofs * dmat) (q : qpt) : dofs * dmat :=
  let '(f, j) := fj in
  let A := sA (S q) in let B := sB (S q) in let D := sD (S q) in
  let w := jxw q in
  let Bm := direct q in
  let Bv := fst (bend b q) in let Bw := snd (bend b q) in
  let Kv := vk_v q in let Kw := vk_w q in
  let dv := slope q u 1 in let dw := slope q u 2 in
  let lin := vm n Bm u in
  let s := fun r => sum 2 (fun k => A r k * lin k) in
  let N := s 0%nat
    + (if bends b then B 0%nat 0%nat * vm n Bv u 0 + B 0%nat 1%nat * vm n Bw u 0
         + (if vk then sum 2 (fun k => A 0%nat k * vk_strain q u k) else 0) else 0) in
  let exx := lin 0%nat + (if bends b && vk then vk_strain q u 0 else 0) in
  let v1 := fun r => match r with O => N | _ => s 1%nat end in
  let f := plusf w (vmt 2 Bm v1) f in
  let f := if bends b then
      let f := if vk then plusf (w * dw) (vmt 2 Kw v1) (plusf (w * dv) (vmt 2 Kv v1) f) else f in
      let v2 := fun r => match r with O => exx | _ => if vk then vk_strain q u 1 else vm n Bw u 1 end in
      let f := plusf (w * B 0%nat 0%nat) (vmt 2 Bv v2) f in
      let f := plusf (w * B 0%nat 1%nat) (vmt 2 Bw v2) f in
      let f := plusf (w * D 0%nat 0%nat) (vmt 2 Bv (vm n Bv u)) f in
      let f := plusf (w * D 1%nat 0%nat) (vmt 2 Bw (vm n Bv u)) f in
      let f := plusf (w * D 1%nat 1%nat) (vmt 2 Bw (vm n Bw u)) f in
      plusf (w * D 0%nat 1%nat) (vmt 2 Bv (vm n Bw u)) f
    else f in
  if req then
    let j := plusj w (rmt 2 Bm (lm 2 Bm A)) j in
    let j := if bends b then
        let j := if vk then
          let a := A 0%nat 0%nat in
          let j := plusj (w * dv * a) (rmt 2 Bm Kv) j in
          let j := plusj (w * dw * a) (rmt 2 Bm Kw) j in
          let j := plusj (w * dv * a) (rmt 2 Kv Bm) j in
          let j := plusj (w * dw * a) (rmt 2 Kw Bm) j in
          let j := plusj (w * N) (rmt 2 Kv Kv) j in
          let j := plusj (w * dv * dv * a) (rmt 2 Kv Kv) j in
          let j := plusj (w * N) (rmt 2 Kw Kw) j in
          let j := plusj (w * dw * dw * a) (rmt 2 Kw Kw) j in
          let j := plusj (w * dv * dw * a) (rmt 2 Kv Kw) j in
          let j := plusj (w * dw * dv * a) (rmt 2 Kw Kv) j in
          let j := plusj (w * dv * B 0%nat 0%nat) (rmt 2 Bv Kv) j in
          let j := plusj (w * dv * B 0%nat 1%nat) (rmt 2 Bw Kv) j in
          let j := plusj (w * dw * B 0%nat 0%nat) (rmt 2 Bv Kw) j in
          let j := plusj (w * dw * B 0%nat 1%nat) (rmt 2 Bw Kw) j in
          let j := plusj (w * dv * B 0%nat 0%nat) (rmt 2 Kv Bv) j in
          let j := plusj (w * dw * B 0%nat 0%nat) (rmt 2 Kw Bv) j in
          let j := plusj (w * dv * B 0%nat 1%nat) (rmt 2 Kv Bw) j in
          plusj (w * dw * B 0%nat 1%nat) (rmt 2 Kw Bw) j
        else j in
        let j := plusj (w * B 0%nat 0%nat) (rmt 2 Bv Bm) j in
        let j := plusj (w * B 0%nat 1%nat) (rmt 2 Bw Bm) j in
        let j := plusj (w * B 0%nat 0%nat) (rmt 2 Bm Bv) j in
        let j := plusj (w * B 0%nat 1%nat) (rmt 2 Bm Bw) j in
        let j := plusj (w * D 0%nat 0%nat) (rmt 2 Bv Bv) j in
        let j := plusj (w * D 1%nat 1%nat) (rmt 2 Bw Bw) j in
        let j := plusj (w * D 1%nat 0%nat) (rmt 2 Bw Bv) j in
        plusj (w * D 0%nat 1%nat) (rmt 2 Bv Bw) j
      else j in
    (f, j)
  else (f, j).

(** timoshenko_bending_operator.cpp L224-277 _transverse_shear_operations: both operators have entries in row 0 only *)
Definition shear_v (q : qpt) : opr := oset (oset zop 0 1 (fun a => dphi q a 0%nat)) 0 5 (scal (- 1) (phi q)).
Definition shear_w (q : qpt) : opr := oset (oset zop 0 2 (fun a => dphi q a 0%nat)) 0 4 (phi q).
Definition shear_qp (G : qpt -> nat -> nat -> R) (u : dofs) (req : bool) (fj : dofs * dmat) (q : qpt) : dofs * dmat :=
  let '(f, j) := fj in
  let mul := fun (B : opr) r => sum 2 (fun k => G q r k * vm n B u k) in
  let f := plusf (jxw q) (vmt 2 (shear_v q) (mul (shear_v q))) f in
  let f := plusf (jxw q) (vmt 2 (shear_w q) (mul (shear_w q))) f in
  if req then
    let j := plusj (jxw q) (rmt 2 (shear_v q) (lm 2 (shear_v q) (G q))) j in
    (f, plusj (jxw q) (rmt 2 (shear_w q) (lm 2 (shear_w q) (G q))) j)
  else (f, j).

(** the local vector and matrix; [sq] are the points of the reduced quadrature of L88-150 *)
Definition local_internal (qs sq : list qpt) (S : qpt -> sect) (G : qpt -> nat -> nat -> R) (u : dofs) (req : bool) : dofs * dmat :=
  let fj := fold_left (internal_qp S u req) qs (zf, zj) in
  if shears b then fold_left (shear_qp G u req) sq fj else fj.

(** L657-672: eps*(jac.diagonal().maxCoeff()) on the diagonal entries that are (nearly) zero.  [macheps] is the
    constant of L36. *)
Definition macheps : R := 22204460492503131 / 10 ^ 32.
Definition regularize (j : dmat) : dmat :=
  let k := macheps * max_diag n j in
  fun c a d e => if (Nat.eqb c d && Nat.eqb a e)%bool then (if rltb (Rabs (j c a c a)) macheps then j c a c a + k else j c a c a)
                 else j c a d e.
(** L540-675 internal_residual; [U] are the unknowns in the global axes *)
Definition internal_residual (qs sq : list qpt) (S : qpt -> sect) (G : qpt -> nat -> nat -> R) (U : dofs) (req : bool)
    (f : dofs) (j : dmat) : dofs * dmat :=
  let s := local_internal qs sq S G (to_local t U) req in
  let f := plusf 1 (to_global t (fst s)) f in
  if req then
    let j := plusj 1 (mat_to_global t (snd s)) j in
    (f, if bends b then j else regularize j)
  else (f, j).
(** L683-815 internal_residual_sensitivity; [S'], [G'] are the derivatives of the section stiffness, [dep] is
    _property.depends_on(p) *)
Definition internal_residual_sensitivity (dep : bool) (qs sq : list qpt) (S' : qpt -> sect) (G' : qpt -> nat -> nat -> R)
    (U : dofs) (req : bool) (f : dofs) (j : dmat) : dofs * dmat :=
  if dep then
    let s := local_internal qs sq S' G' (to_local t U) req in
    (plusf 1 (to_global t (fst s)) f, if req then plusj 1 (mat_to_global t (snd s)) j else j)
  else (f, j).

(** L819-1035 internal_residual_jac_dot_state_sensitivity; [u] and [us] are _local_sol and _local_sol_sens.  Without a
    bending operator the operators of bending and of the von Karman strain stay zero. *)
Definition jac_dot_qp (S : qpt -> sect) (u us : dofs) (j : dmat) (q : qpt) : dmat :=
  let A := sA (S q) in let B := sB (S q) in
  let w := jxw q in
  let Bm := direct q in
  let Bv := fst (bend b q) in let Bw := snd (bend b q) in
  let on := fun x : R => if bends b then x else 0 in
  let Kv := if bends b then vk_v q else zop in let Kw := if bends b then vk_w q else zop in
  let dv := on (slope q u 1) in let dw := on (slope q u 2) in
  let sv := on (slope q us 1) in let sw := on (slope q us 2) in
  let N := sum 2 (fun k => A 0%nat k * vm n Bm us k)
    + on (B 0%nat 0%nat * vm n Bv us 0 + B 0%nat 1%nat * vm n Bw us 0 + A 0%nat 0%nat * (dv * sv + dw * sw)) in
  let a := A 0%nat 0%nat in
  let j := plusj (w * sv * a) (rmt 2 Bm Kv) j in
  let j := plusj (w * sw * a) (rmt 2 Bm Kw) j in
  let j := plusj (w * sv * a) (rmt 2 Kv Bm) j in
  let j := plusj (w * sw * a) (rmt 2 Kw Bm) j in
  let j := plusj (w * N) (rmt 2 Kv Kv) j in
  let j := plusj (w * sv * dv * a) (rmt 2 Kv Kv) j in
  let j := plusj (w * dv * sv * a) (rmt 2 Kv Kv) j in
  let j := plusj (w * N) (rmt 2 Kw Kw) j in
  let j := plusj (w * dw * sw * a) (rmt 2 Kw Kw) j in
  let j := plusj (w * dw * sw * a) (rmt 2 Kw Kw) j in
  let j := plusj (w * dv * sw * a) (rmt 2 Kv Kw) j in
  let j := plusj (w * sv * dw * a) (rmt 2 Kv Kw) j in
  let j := plusj (w * dw * sv * a) (rmt 2 Kw Kv) j in
  let j := plusj (w * sw * dv * a) (rmt 2 Kw Kv) j in
  let j := plusj (w * sv * B 0%nat 0%nat) (rmt 2 Bv Kv) j in
  let j := plusj (w * sv * B 0%nat 1%nat) (rmt 2 Bw Kv) j in
  let j := plusj (w * sw * B 0%nat 0%nat) (rmt 2 Bv Kw) j in
  let j := plusj (w * sw * B 0%nat 1%nat) (rmt 2 Bw Kw) j in
  let j := plusj (w * sv * B 0%nat 1%nat) (rmt 2 Kv Bv) j in      (* L1013: B(0,1), as in the code *)
  let j := plusj (w * sw * B 0%nat 0%nat) (rmt 2 Kw Bv) j in
  let j := plusj (w * sv * B 0%nat 1%nat) (rmt 2 Kv Bw) j in
  plusj (w * sw * B 0%nat 1%nat) (rmt 2 Kw Bw) j.
Definition jac_dot_state_sensitivity (qs : list qpt) (S : qpt -> sect) (U Us : dofs) (j : dmat) : dmat :=
  if vk then plusj 1 (mat_to_global t (fold_left (jac_dot_qp S (to_local t U) (to_local t Us)) qs zj)) j else j.

(** the force of a given axial force and of given section moments: L1380-1455 of prestress_residual (and L1505-1580 of
    its sensitivity), L1850-1915 of thermal_residual and L2030-2095 of its sensitivity.  [vA] is the vector for the direct
    strain, [vB] the vector of the two moments, [M] the matrix of the initial stress terms. *)
Definition resultant_qp (vA vB : qpt -> nat -> R) (M : qpt -> nat -> nat -> R) (u : dofs) (req : bool) (fj : dofs * dmat) (q : qpt) : dofs * dmat :=
  let '(f, j) := fj in
  let w := jxw q in
  let Bv := fst (bend b q) in let Bw := snd (bend b q) in
  let slopes := fun (x : R) k => match k with O => x * vA q 0%nat | _ => 0 end in   (* vk_d.dxi_mat^T * vA *)
  let f := plusf w (vmt 2 (direct q) (vA q)) f in
  let f := if bends b then
      let f := if vk then plusf w (vmt 2 (vk_w q) (slopes (slope q u 2)))
                            (plusf w (vmt 2 (vk_v q) (slopes (slope q u 1))) f) else f in
      plusf w (vmt 2 Bw (vB q)) (plusf w (vmt 2 Bv (vB q)) f)
    else f in
  let j := if req && bends b && vk then
      plusj w (rmt 2 (vk_w q) (lm 2 (vk_w q) (M q))) (plusj w (rmt 2 (vk_v q) (lm 2 (vk_v q) (M q))) j) else j in
  (f, j).
Definition resultant (qs : list qpt) (vA vB : qpt -> nat -> R) (M : qpt -> nat -> nat -> R) (u : dofs) (req : bool) : dofs * dmat :=
  fold_left (resultant_qp vA vB M u req) qs (zf, zj).

(** L1283-1304: the prestress matrices as vectors *)
Definition vec_A (P : nat -> nat -> R) (r : nat) : R := match r with O => P 0%nat 0%nat | _ => 0 end.
Definition vec_B (P : nat -> nat -> R) (r : nat) : R := match r with O => P 0%nat 0%nat | S O => P 0%nat 1%nat | _ => 0 end.
(** L1309-1460 prestress_residual; [PA], [PB] are prestress_A_matrix and prestress_B_matrix (2x2), [on] is
    _property.if_prestressed().  prestress_residual_sensitivity, L1468-1600, is the same code with the derivatives. *)
Definition prestress_residual (on : bool) (qs : list qpt) (PA PB : qpt -> nat -> nat -> R) (U : dofs) (req : bool)
    (f : dofs) (j : dmat) : dofs * dmat :=
  if on then
    let s := resultant qs (fun q => vec_A (PA q)) (fun q => vec_B (PB q)) PA (to_local t U) req in
    (plusf 1 (to_global t (fst s)) f, if req && vk then plusj 1 (mat_to_global t (snd s)) j else j)
  else (f, j).
(** L1781-1940 thermal_residual; [EA], [EB] are the single columns of the thermal expansion matrices, [dt] is the
    temperature above the reference, [scaling] the optional thermal_jacobian_scaling *)
Definition mat00 (x : R) (i j : nat) : R := match i, j with O, O => x | _, _ => 0 end.
Definition thermal_residual (scaling : option R) (qs : list qpt) (EA EB : qpt -> nat -> R) (dt : qpt -> R) (U : dofs) (req : bool)
    (f : dofs) (j : dmat) : dofs * dmat :=
  let s := resultant qs (fun q r => EA q r * dt q) (fun q r => EB q r * dt q) (fun q => mat00 (EA q 0%nat * dt q)) (to_local t U) req in
  (plusf (- 1) (to_global t (fst s)) f,
   if req && vk then plusj (- match scaling with Some x => x | None => 1 end) (mat_to_global t (snd s)) j else j).
(** L1949-2105 thermal_residual_sensitivity *)
Definition thermal_residual_sensitivity (qs : list qpt) (EA EB EA' EB' : qpt -> nat -> R) (dt dt' : qpt -> R) (U : dofs) (req : bool)
    (f : dofs) (j : dmat) : dofs * dmat :=
  let vA := fun q r => EA q r * dt' q + EA' q r * dt q in
  let vB := fun q r => EB q r * dt' q + EB' q r * dt q in
  let s := resultant qs vA vB (fun q => mat00 (vA q 0%nat)) (to_local t U) req in
  (plusf (- 1) (to_global t (fst s)) f, if req && vk then plusj (- 1) (mat_to_global t (snd s)) j else j).

(** L1617-1690 surface_pressure_residual on an end of the beam, [ar] the section area, and L1695-1770 its sensitivity *)
Definition end_force (side : list qpt) (force : qpt -> R) : dofs :=
  fold_left (fun v q => plusf (jxw q) (fun c a => phi q a * (if Nat.ltb c 3 then force q * nrm q c else 0)) v) side zf.
Definition surface_pressure_residual (follower : bool) (side : list qpt) (press ar : qpt -> R) (f : dofs) : outcome dofs :=
  assert_ (negb follower) (Ok (plusf (- 1) (to_global t (end_force side (fun q => press q * ar q))) f)).
Definition surface_pressure_residual_sensitivity (follower : bool) (side : list qpt) (press ar press' ar' : qpt -> R) (f : dofs) : outcome dofs :=
  assert_ (negb follower) (Ok (plusf (- 1) (to_global t (end_force side (fun q => press q * ar' q + press' q * ar q))) f)).
End Element.
