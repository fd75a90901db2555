(** Model of the loads of structural elements: surface pressure, traction and piston theory,
    /repo/src/elasticity/structural_element_base.cpp, structural_element_1d.cpp, structural_element_2d.cpp,
    piston_theory_boundary_condition.cpp, and of the selection of the loads of an element, /repo/src/mesh/geom_elem.cpp.
    The finite element data at the quadrature points are data of the model, user functions are given by their values and
    by the derivatives they report.  The load of a shifted boundary is not modelled.  Values are exact reals; a result
    that is not a finite number is a fault. *)
From Coq Require Import List Arith Bool Reals.
From Verif Require Import Base RBool Solid_Model Dof6_Model Beam_Model Plate_Model.
Import ListNotations.
Open Scope R_scope.

(** FEMOperatorMatrix::reinit(6, phi): every variable is interpolated with the same functions *)
Definition b_all (q : qpt) : opr := fun r c a => if Nat.eqb r c then phi q a else 0.
(** local_f += JxW * B^T force at every point *)
Definition nodal (qs : list qpt) (w : qpt -> R) (force : qpt -> nat -> R) : dofs :=
  fold_left (fun v q => plusf (w q) (vmt 6 (b_all q) (force q)) v) qs zf.
(** force(i) for i < 3, a vector with six entries *)
Definition force3 (v : nat -> R) (c : nat) : R := if Nat.ltb c 3 then v c else 0.
(** libMesh::Point normal; normal(dim) = -1 *)
Definition down (dim c : nat) : R := if Nat.eqb c dim then - 1 else 0.

Section Pressure.
Variable dim : nat.                (* _elem.dim() *)
Variable follower : bool.          (* follower_forces *)
Variable t : frame.                (* axes of the element *)
(** structural_element_base.cpp L1167-1236 surface_pressure_residual *)
Definition pressure_residual (qs : list qpt) (press : qpt -> R) (f : dofs) : outcome dofs :=
  assert_ (Nat.ltb dim 3) (assert_ (negb follower)
    (Ok (plusf (- 1) (to_global t (nodal qs jxw (fun q => force3 (fun i => press q * down dim i)))) f))).
(** L1242-1311 surface_pressure_residual_sensitivity; [press'] is what func.derivative returns *)
Definition pressure_residual_sensitivity (qs : list qpt) (press' : qpt -> R) (f : dofs) : outcome dofs :=
  assert_ (Nat.ltb dim 3) (assert_ (negb follower)
    (Ok (plusf (- 1) (to_global t (nodal qs jxw (fun q => force3 (fun i => press' q * down dim i)))) f))).
(** L1316-1404 surface_pressure_boundary_velocity; [vel q] is what vel_f.derivative returns *)
Definition pressure_boundary_velocity (side : list qpt) (press : qpt -> R) (vel : qpt -> nat -> R) (f : dofs) : outcome dofs :=
  assert_ (Nat.ltb dim 3) (assert_ (negb follower)
    (Ok (plusf (- 1) (to_global t (nodal side (fun q => jxw q * sum dim (fun i => vel q i * nrm q i))
      (fun q => force3 (fun i => press q * down dim i)))) f))).
(** L1409-1482 linearized_surface_pressure_residual; dn_rot stays zero *)
Definition linearized_pressure (qs : list qpt) (press dpress : qpt -> R) (f : dofs) : outcome dofs :=
  assert_ (Nat.ltb dim 3) (assert_ (negb follower)
    (Ok (plusf (- 1) (to_global t (nodal qs jxw (fun q => force3 (fun i => press q * 0 + dpress q * down dim i)))) f))).
(** L1486-1562 linearized_frequency_domain_surface_pressure_residual: real and imaginary parts of the vector and of the
    pressure; the operators and the transformation are real *)
Definition frequency_pressure (qs : list qpt) (press : qpt -> R) (dpress : qpt -> R * R) (f : dofs * dofs) : outcome (dofs * dofs) :=
  assert_ (Nat.ltb dim 3) (assert_ (negb follower)
    (let part := fun (p : R * R -> R) (g : dofs) =>
       plusf (- 1) (to_global t (nodal qs jxw (fun q => force3 (fun i => press q * 0 + p (dpress q) * down dim i)))) g in
     Ok (part fst (fst f), part snd (snd f)))).
End Pressure.

Section Edge.
Variable follower : bool.
Variable t : frame.
(** structural_element_2d.cpp L2356-2427 surface_traction_residual, [h] the thickness, and L2430-2505 its sensitivity *)
Definition traction_residual (side : list qpt) (trac : qpt -> nat -> R) (h : qpt -> R) (f : dofs) : outcome dofs :=
  assert_ (negb follower)
    (Ok (plusf (- 1) (to_global t (nodal side jxw (fun q => force3 (fun i => trac q i * h q)))) f)).
Definition traction_residual_sensitivity (side : list qpt) (trac : qpt -> nat -> R) (h : qpt -> R)
    (trac' : qpt -> nat -> R) (h' : qpt -> R) (f : dofs) : outcome dofs :=
  assert_ (negb follower)
    (Ok (plusf (- 1) (to_global t (nodal side jxw (fun q => force3 (fun i => trac q i * h' q + trac' q i * h q)))) f)).
(** L2855-2925 surface_pressure_residual on an edge, and L2930-3005 its sensitivity *)
Definition edge_pressure_residual (side : list qpt) (press h : qpt -> R) (f : dofs) : outcome dofs :=
  assert_ (negb follower)
    (Ok (plusf (- 1) (to_global t (nodal side jxw (fun q => force3 (fun i => press q * h q * nrm q i)))) f)).
Definition edge_pressure_residual_sensitivity (side : list qpt) (press h press' h' : qpt -> R) (f : dofs) : outcome dofs :=
  assert_ (negb follower)
    (Ok (plusf (- 1) (to_global t (nodal side jxw (fun q => force3 (fun i => (press q * h' q + press' q * h q) * nrm q i)))) f)).
End Edge.

(** ** piston_theory_boundary_condition.cpp *)

(** velocity, Mach number, density, ratio of specific heats *)
Record flow : Type := mkFlow { fV : R; fM : R; frho : R; fgam : R }.
(** The result is not a finite number at Mach numbers up to one, and, where the cubic term uses dwdt/V, at V = 0. *)
Definition finite (order : nat) (fl : flow) (x : R) : outcome R :=
  if rltb 1 (fM fl * fM fl) then if (Nat.eqb order 3 && reqb (fV fl) 0)%bool then Fault DivByZero else Ok x else Fault DivByZero.
Definition Mf (M : R) : R := (M * M - 2) / (M * M - 1).
Definition v0 (fl : flow) (dwdx dwdt : R) : R := dwdx + Mf (fM fl) * dwdt / fV fl.
Definition v1 (fl : flow) (dwdx dwdt : R) : R := fV fl * fV fl * dwdx + Mf (fM fl) * fV fl * dwdt.
Definition v2 (fl : flow) (dwdx dwdt : R) : R := (fV fl * dwdx + Mf (fM fl) * dwdt) ^ 2.
Definition v3 (fl : flow) (dwdx dwdt : R) : R := v0 fl dwdx dwdt * v2 fl dwdx dwdt.
(** switch (_order): case 3 falls through to case 2; any other order has only the linear term *)
Definition by_order (order : nat) (linear quadratic cubic : R) : R :=
  match order with 3%nat => linear + cubic + quadratic | 2%nat => linear + quadratic | _ => linear end.
(** L58-93 PistonTheoryPressure::operator() *)
Definition pressure_val (order : nat) (fl : flow) (dwdx dwdt : R) : R :=
  let M := fM fl in let g := fgam fl in
  by_order order (v1 fl dwdx dwdt) ((g + 1) / 4 * M * v2 fl dwdx dwdt) ((g + 1) / 12 * M * M * v3 fl dwdx dwdt)
  * (frho fl / sqrt (M * M - 1)).
Definition pressure (order : nat) (fl : flow) (dwdx dwdt : R) : outcome R := finite order fl (pressure_val order fl dwdx dwdt).
(** L98-171 PistonTheoryPressure::derivative; [d] are the derivatives of the flow properties, [xd] and [td] those of the
    slope and the velocity *)
Definition pressure_der_val (order : nat) (fl d : flow) (dwdx dwdt xd td : R) : R :=
  let V := fV fl in let M := fM fl in let rho := frho fl in let g := fgam fl in
  let dV := fV d in let dM := fM d in let drho := frho d in let dg := fgam d in
  let mf := Mf M in
  let dMf := 2 * M * dM / (M * M - 1) - (M * M - 2) / (M * M - 1) ^ 2 * 2 * M * dM in
  let V0 := v0 fl dwdx dwdt in let V1 := v1 fl dwdx dwdt in let V2 := v2 fl dwdx dwdt in let V3 := v3 fl dwdx dwdt in
  let s := V * dwdx + mf * dwdt in
  let v0dw := xd in let v1dw := V * V * xd in let v2dw := 2 * s * V * xd in let v3dw := V0 * v2dw + v0dw * V2 in
  let v0dwt := mf / V * td in let v1dwt := mf * V * td in let v2dwt := 2 * s * mf * td in let v3dwt := v0dwt * V2 + V0 * v2dwt in
  let dv0dV := - mf * dwdt / (V * V) * dV in let dv1dV := (2 * V * dwdx + mf * dwdt) * dV in
  let dv2dV := 2 * s * dwdx * dV in let dv3dV := dv0dV * V2 + V0 * dv2dV in
  let dv0dM := dMf * dwdt / V in let dv1dM := dMf * V * dwdt in let dv2dM := 2 * s * dMf * dwdt in let dv3dM := dv0dM * V2 + V0 * dv2dM in
  let f1 := rho / sqrt (M * M - 1) in let df1drho := drho / sqrt (M * M - 1) in
  let df1dM := - (1 / 2) * rho / Rpower (M * M - 1) (3 / 2) * 2 * M * dM in
  by_order order (f1 * (dv1dV + dv1dM + v1dw + v1dwt) + (df1drho + df1dM) * V1)
    ((df1drho + df1dM) * M * V2 * (g + 1) / 4 + f1 * (dM * V2 + M * (dv2dV + dv2dM + v2dw + v2dwt)) * (g + 1) / 4 + f1 * M * V2 / 4 * dg)
    ((df1drho + df1dM) * M * M * V3 * (g + 1) / 12 + f1 * M * (2 * dM * V3 + M * (dv3dV + dv3dM + v3dw + v3dwt)) * (g + 1) / 12
     + f1 * M * M * V3 / 12 * dg).
Definition pressure_derivative (order : nat) (fl d : flow) (dwdx dwdt xd td : R) : outcome R :=
  finite order fl (pressure_der_val order fl d dwdx dwdt xd td).
(** L208-258 PistonTheoryPressureXDerivative::operator() *)
Definition dpdx_val (order : nat) (fl : flow) (dwdx dwdt : R) : R :=
  let V := fV fl in let M := fM fl in let g := fgam fl in
  let s := V * dwdx + Mf M * dwdt in
  let v2dw := 2 * s * V in let v3dw := v0 fl dwdx dwdt * v2dw + 1 * v2 fl dwdx dwdt in
  let f1 := frho fl / sqrt (M * M - 1) in
  by_order order (f1 * (V * V)) (f1 * M * v2dw * (g + 1) / 4) (f1 * M * M * v3dw * (g + 1) / 12).
Definition dpressure_dx (order : nat) (fl : flow) (dwdx dwdt : R) : outcome R := finite order fl (dpdx_val order fl dwdx dwdt).
(** L263-338 PistonTheoryPressureXDerivative::derivative *)
Definition dpdx_der_val (order : nat) (fl d : flow) (dwdx dwdt : R) : R :=
  let V := fV fl in let M := fM fl in let rho := frho fl in let g := fgam fl in
  let dV := fV d in let dM := fM d in let drho := frho d in let dg := fgam d in
  let mf := Mf M in
  let dMfdM := 2 * M * dM / (M * M - 1) - (M * M - 2) / (M * M - 1) ^ 2 * 2 * M * dM in
  let V0 := v0 fl dwdx dwdt in let V2 := v2 fl dwdx dwdt in
  let s := V * dwdx + mf * dwdt in
  let v0dw := 1 in let v1dw := V * V in let v2dw := 2 * s * V in let v3dw := V0 * v2dw + v0dw * V2 in
  let dv0dV := - mf * dwdt / (V * V) * dV in let dv2dV := 2 * s * dwdx * dV in
  let dv0dM := dMfdM * dwdt / V in let dv2dM := 2 * s * dMfdM * dwdt in
  let v0dwdV := 0 in let v1dwdV := 2 * V * dV in let v2dwdV := 2 * (2 * V * dV * dwdx + mf * dV * dwdt) in
  let v3dwdV := dv0dV * v2dw + V0 * v2dwdV + v0dwdV * V2 + v0dw * dv2dV in
  let v0dwdM := 0 in let v1dwdM := 0 in let v2dwdM := 2 * dMfdM * dwdt * V in
  let v3dwdM := dv0dM * v2dw + V0 * v2dwdM + v0dwdM * V2 + v0dw * dv2dM in
  let f1 := rho / sqrt (M * M - 1) in let df1drho := drho / sqrt (M * M - 1) in
  let df1dM := - (1 / 2) * rho / Rpower (M * M - 1) (3 / 2) * 2 * M * dM in
  by_order order (f1 * (v1dwdV + v1dwdM) + (df1drho + df1dM) * v1dw)
    ((df1drho + df1dM) * M * v2dw * (g + 1) / 4 + f1 * (dM * v2dw + M * (v2dwdV + v2dwdM)) * (g + 1) / 4 + f1 * M * v2dw / 4 * dg)
    ((df1drho + df1dM) * M * M * v3dw * (g + 1) / 12 + f1 * M * (2 * dM * v3dw + M * (v3dwdV + v3dwdM)) * (g + 1) / 12
     + f1 * M * M * v3dw / 12 * dg).
Definition dpressure_dx_derivative (order : nat) (fl d : flow) (dwdx dwdt : R) : outcome R :=
  finite order fl (dpdx_der_val order fl d dwdx dwdt).
(** L374-423 PistonTheoryPressureXdotDerivative::operator() *)
Definition dpdxdot_val (order : nat) (fl : flow) (dwdx dwdt : R) : R :=
  let V := fV fl in let M := fM fl in let g := fgam fl in
  let mf := Mf M in let f1 := frho fl / sqrt (M * M - 1) in
  let s := V * dwdx + mf * dwdt in
  let v2dwt := 2 * s * mf in let v3dwt := mf / V * v2 fl dwdx dwdt + v0 fl dwdx dwdt * v2dwt in
  by_order order (f1 * (mf * V)) (f1 * M * v2dwt * (g + 1) / 4) (f1 * M * M * v3dwt * (g + 1) / 12).
Definition dpressure_dxdot (order : nat) (fl : flow) (dwdx dwdt : R) : outcome R := finite order fl (dpdxdot_val order fl dwdx dwdt).
(** L428-502 PistonTheoryPressureXdotDerivative::derivative *)
Definition dpdxdot_der_val (order : nat) (fl d : flow) (dwdx dwdt : R) : R :=
  let V := fV fl in let M := fM fl in let rho := frho fl in let g := fgam fl in
  let dV := fV d in let dM := fM d in let drho := frho d in let dg := fgam d in
  let mf := Mf M in
  let dMfdM := 2 * M * dM / (M * M - 1) - (M * M - 2) / (M * M - 1) ^ 2 * 2 * M * dM in
  let V0 := v0 fl dwdx dwdt in let V2 := v2 fl dwdx dwdt in
  let s := V * dwdx + mf * dwdt in
  let dv0dV := - mf * dwdt / (V * V) * dV in let dv2dV := 2 * s * dwdx * dV in
  let dv0dM := dMfdM * dwdt / V in let dv2dM := 2 * s * dMfdM * dwdt in
  let v0dwt := mf / V in let v1dwt := mf * V in let v2dwt := 2 * s * mf in let v3dwt := v0dwt * V2 + V0 * v2dwt in
  let v0dwtdV := - mf / (V * V) * dV in let v1dwtdV := mf * dV in let v2dwtdV := 2 * dV * dwdx * mf in
  let v3dwtdV := v0dwtdV * V2 + v0dwt * dv2dV + dv0dV * v2dwt + V0 * v2dwtdV in
  let v0dwtdM := dMfdM / V in let v1dwtdM := dMfdM * V in let v2dwtdM := 2 * (V * dMfdM * dwdx + 2 * mf * dMfdM * dwdt) in
  let v3dwtdM := v0dwtdM * V2 + v0dwt * dv2dM + dv0dM * v2dwt + V0 * v2dwtdM in
  let f1 := rho / sqrt (M * M - 1) in let df1drho := drho / sqrt (M * M - 1) in
  let df1dM := - (1 / 2) * rho / Rpower (M * M - 1) (3 / 2) * 2 * M * dM in
  by_order order (f1 * (v1dwtdV + v1dwtdM) + (df1drho + df1dM) * v1dwt)
    ((df1drho + df1dM) * M * v2dwt * (g + 1) / 4 + f1 * (dM * v2dwt + M * (v2dwtdV + v2dwtdM)) * (g + 1) / 4 + f1 * M * v2dwt / 4 * dg)
    ((df1drho + df1dM) * M * M * v3dwt * (g + 1) / 12 + f1 * M * (2 * dM * v3dwt + M * (v3dwtdV + v3dwtdM)) * (g + 1) / 12
     + f1 * M * M * v3dwt / 12 * dg).
Definition dpressure_dxdot_derivative (order : nat) (fl d : flow) (dwdx dwdt : R) : outcome R :=
  finite order fl (dpdxdot_der_val order fl d dwdx dwdt).
(** L507-518: the constructor normalises the direction of the flow; Eigen's normalize leaves a zero vector alone *)
Definition normalize (v : nat -> R) (k : nat) : R :=
  let z := sum 3 (fun i => v i * v i) in if rltb 0 z then v k / sqrt z else v k.

(** ** piston theory on elements *)

(** a pass over the quadrature points in which an evaluation may fail *)
Fixpoint passo {A} (g : A -> qpt -> outcome A) (qs : list qpt) (a : A) : outcome A :=
  match qs with [] => Ok a | q :: qs => a <- g a q ;; passo g qs a end.
Definition acc3 : Type := (dofs * dmat * dmat)%type.   (* local_f, local_jac_xdot, local_jac *)

Section Piston.
Variable n : nat.                  (* n_phi *)
Variable follower : bool.
Variable t : frame.
(** the three functions of slope and velocity at a point; for the sensitivity, their derivatives *)
Record pfun : Type := mkPf { pf : R -> R -> outcome R; px : R -> R -> outcome R; pxd : R -> R -> outcome R }.
Variable pr : qpt -> pfun.

(** structural_element_2d.cpp L3818-3985 piston_theory_residual and L3996-4172 piston_theory_residual_sensitivity; [U],
    [Ud] solution and velocity, [dir] the direction of the flow *)
Definition b_w2 (q : qpt) : opr := oset zop 0 2 (phi q).
Definition piston2_qp (vel : nat -> R) (u ud : dofs) (req : bool) (a : acc3) (q : qpt) : outcome acc3 :=
  let '(f, jx, j) := a in
  let dwdt := vm n (b_w2 q) ud 0 in
  let dwdx := sum 2 (fun i => vk_mat n q u i i * vel i) in
  p <- pf (pr q) dwdx dwdt ;;
  let n2 := down 2 2 in
  let f := plusf (jxw q) (vmt 2 (b_w2 q) (fun r => if Nat.eqb r 0 then p * n2 else 0)) f in
  if req then
    px1 <- pxd (pr q) dwdx dwdt ;;
    let jx := plusj (jxw q * px1 * n2) (rmt 2 (b_w2 q) (b_w2 q)) jx in
    px2 <- px (pr q) dwdx dwdt ;;
    let m22 := fun e r k => if (Nat.eqb r e && Nat.eqb k e)%bool then vel e else 0 in
    let j := plusj (jxw q * px2 * n2) (rmt 2 (b_w2 q) (lm 2 (b_vk q) (m22 0%nat))) j in
    let j := plusj (jxw q * px2 * n2) (rmt 2 (b_w2 q) (lm 2 (b_vk q) (m22 1%nat))) j in
    Ok (f, jx, j)
  else Ok (f, jx, j).
Definition add_global (req : bool) (a fj : acc3) : acc3 :=
  let '(lf, ljx, lj) := a in let '(f, jx, j) := fj in
  (plusf (- 1) (to_global t lf) f,
   if req then plusj (- 1) (mat_to_global t ljx) jx else jx, if req then plusj (- 1) (mat_to_global t lj) j else j).
Definition piston2 (dir : nat -> R) (qs : list qpt) (U Ud : dofs) (req : bool) (fj : acc3) : outcome acc3 :=
  assert_ (negb follower)
  match t with
  | None => Fault AssertFailed      (* T_matrix() of an element without local axes *)
  | Some T =>
      let vel := fun i => sum 3 (fun k => T k i * dir k) in
      a <- passo (piston2_qp vel (to_local t U) (to_local t Ud) req) qs (zf, zj, zj) ;; Ok (add_global req a fj)
  end.

(** structural_element_1d.cpp L2126-2312 piston_theory_residual and L2316-2500 its sensitivity *)
Definition b_v1 (q : qpt) : opr := oset zop 0 1 (phi q).
Definition b_w1 (q : qpt) : opr := oset zop 1 2 (phi q).
Definition piston1_qp (u ud : dofs) (req : bool) (a : acc3) (q : qpt) : outcome acc3 :=
  let '(f, jx, j) := a in
  let vd := vm n (b_v1 q) ud 0 in
  let wd := vm n (b_w1 q) ud 1 in
  let dv := slope n q u 1 in let dw := slope n q u 2 in
  let n1 := down 1 1 in let n2 := down 1 2 in
  p1 <- pf (pr q) dv vd ;; p2 <- pf (pr q) dw wd ;;
  let f := plusf (jxw q) (vmt 2 (b_v1 q) (fun r => if Nat.eqb r 0 then p1 * n1 else 0)) f in
  let f := plusf (jxw q) (vmt 2 (b_v1 q) (fun r => if Nat.eqb r 1 then p2 * n2 else 0)) f in
  if req then
    a1 <- pxd (pr q) dv vd ;;
    let jx := plusj (jxw q * a1 * n1) (rmt 2 (b_v1 q) (b_v1 q)) jx in
    a2 <- px (pr q) dv vd ;;
    let j := plusj (jxw q * a2 * n1) (rmt 2 (b_v1 q) (vk_v q)) j in
    a3 <- pxd (pr q) dw wd ;;
    let jx := plusj (jxw q * a3 * n2) (rmt 2 (b_w1 q) (b_w1 q)) jx in
    a4 <- px (pr q) dw wd ;;
    let j := plusj (jxw q * a4 * n2) (rmt 2 (b_w1 q) (vk_w q)) j in
    Ok (f, jx, j)
  else Ok (f, jx, j).
Definition piston1 (qs : list qpt) (U Ud : dofs) (req : bool) (fj : acc3) : outcome acc3 :=
  assert_ (negb follower)
  (a <- passo (piston1_qp (to_local t U) (to_local t Ud) req) qs (zf, zj, zj) ;; Ok (add_global req a fj)).
End Piston.
(** get_pressure_function, get_dpdx_function, get_dpdxdot_function, and their derivative members: slope and velocity are
    parameters of the call and do not depend on the parameter *)
Definition values (order : nat) (fl : flow) : pfun := mkPf (pressure order fl) (dpressure_dx order fl) (dpressure_dxdot order fl).
Definition derivatives (order : nat) (fl d : flow) : pfun :=
  mkPf (fun x xd => pressure_derivative order fl d x xd 0 0) (dpressure_dx_derivative order fl d) (dpressure_dxdot_derivative order fl d).
(** structural_element_2d.cpp L3780-3812: piston theory on an edge *)
Definition piston_side (fj : acc3) : outcome acc3 := Fault AssertFailed.

(** ** selection of the loads *)

(** base/boundary_condition_base.h L29-51 *)
Inductive bctype : Type := SURFACE_PRESSURE | SURFACE_TRACTION | SURFACE_TRACTION_SHIFTED_BOUNDARY | POINT_LOAD | POINT_MOMENT
  | PISTON_THEORY | DIRICHLET | TEMPERATURE | HEAT_FLUX | CONVECTION_HEAT_FLUX | SURFACE_RADIATION_HEAT_FLUX | HEAT_SOURCE
  | NO_SLIP_WALL | SYMMETRY_WALL | SLIP_WALL | FAR_FIELD | EXHAUST | ISOTHERMAL | ADIABATIC | BOUNDARY_VELOCITY.
Inductive action : Type := Apply | Skip | Refuse.
(** structural_element_base.cpp: the switch of side_external_residual (L649-697) and its sensitivity (L991-1045), of
    linearized_side_external_residual (L730-742), of linearized_frequency_domain_side_external_residual (L775-795), of
    volume_external_residual (L824-852) and its sensitivity (L1076-1105), of linearized_volume_external_residual
    (L885-912), of its frequency domain version (L945-962), and of volume_external_residual_boundary_velocity (L1138-1165) *)
Definition side_rule (k : bctype) : action := match k with
  | SURFACE_PRESSURE | SURFACE_TRACTION | SURFACE_TRACTION_SHIFTED_BOUNDARY | PISTON_THEORY => Apply
  | BOUNDARY_VELOCITY | DIRICHLET => Skip | _ => Refuse end.
Definition side_sensitivity_rule (k : bctype) : action := match k with
  | SURFACE_PRESSURE | SURFACE_TRACTION | SURFACE_TRACTION_SHIFTED_BOUNDARY | PISTON_THEORY => Apply
  | BOUNDARY_VELOCITY | DIRICHLET => Skip | _ => Refuse end.
Definition linearized_side_rule (k : bctype) : action := match k with BOUNDARY_VELOCITY | DIRICHLET => Skip | _ => Refuse end.
Definition frequency_side_rule (k : bctype) : action := match k with
  | SURFACE_PRESSURE => Apply | BOUNDARY_VELOCITY | DIRICHLET => Skip | _ => Refuse end.
Definition volume_rule (k : bctype) : action := match k with SURFACE_PRESSURE | PISTON_THEORY | TEMPERATURE => Apply | _ => Refuse end.
Definition volume_sensitivity_rule (k : bctype) : action := match k with SURFACE_PRESSURE | PISTON_THEORY | TEMPERATURE => Apply | _ => Refuse end.
Definition linearized_volume_rule (k : bctype) : action := match k with SURFACE_PRESSURE | TEMPERATURE => Apply | _ => Refuse end.
Definition frequency_volume_rule (k : bctype) : action := match k with SURFACE_PRESSURE => Apply | _ => Refuse end.
Definition volume_velocity_rule (k : bctype) : action := match k with SURFACE_PRESSURE | TEMPERATURE => Apply | _ => Refuse end.

Section Select.
Variable load : Type.              (* a boundary condition object *)
Variable kind : load -> bctype.    (* type() *)
(** the entries of a multimap with the key [id], in order *)
Definition equal_range (bc : list (nat * load)) (id : nat) : list load :=
  map snd (filter (fun e => Nat.eqb (fst e) id) bc).
(** geom_elem.cpp L181-211 external_side_loads_for_quadrature_elem: the map from sides to loads, traversed in order;
    [bids i] are the boundary ids of side i *)
Definition side_loads (n_sides : nat) (bids : nat -> list nat) (bc : list (nat * load)) : list (nat * load) :=
  flat_map (fun i => flat_map (fun id => map (pair i) (equal_range bc id)) (bids i)) (seq 0 n_sides).
(** the loops over the loads.  What a routine adds to the residual and the matrices is [what]; [I] indexes their
    entries. *)
Variable I : Type.
Variable what : nat -> load -> outcome (I -> R).
Fixpoint apply_all (rule : bctype -> action) (ls : list (nat * load)) (st : I -> R) : outcome (I -> R) :=
  match ls with
  | [] => Ok st
  | (s, l) :: ls => match rule (kind l) with
      | Apply => d <- what s l ;; apply_all rule ls (fun i => st i + d i)
      | Skip => apply_all rule ls st
      | Refuse => Fault LibError end
  end.
Definition side_external (rule : bctype -> action) (n_sides : nat) (bids : nat -> list nat) (bc : list (nat * load)) (st : I -> R) : outcome (I -> R) :=
  apply_all rule (side_loads n_sides bids bc) st.
(** the volume loads of the subdomain of the element *)
Definition volume_external (rule : bctype -> action) (sid : nat) (bc : list (nat * load)) (st : I -> R) : outcome (I -> R) :=
  apply_all rule (map (pair O) (equal_range bc sid)) st.
End Select.
