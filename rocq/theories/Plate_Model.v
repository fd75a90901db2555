(** Model of the plate element MAST::StructuralElement2D, /repo/src/elasticity/structural_element_2d.cpp, and of its two
    bending operators, mindlin_bending_operator.cpp and dkt_bending_operator.h.  The finite element data at the
    quadrature points are data of the model: dphi(.)(0) and dphi(.)(1) are derivatives along the axes of the element.
    Section stiffness matrices are data at the quadrature points; the cards that compute them are modelled in Sect_Model.
    calculate_stress, piston theory and the velocity terms of a moving boundary are not modelled here.  Values are exact
    reals. *)
From Coq Require Import List Arith Bool Reals.
From Verif Require Import Base RBool Solid_Model Dof6_Model.
Import ListNotations.
Open Scope R_scope.

(** MAST::NO_BENDING, or an operator of bending_operator.cpp L72-100.  The DKT operator holds a triangle with six nodes
    of its own, dkt_bending_operator.h L45-92, built on the element of the mesh: [P] are the coordinates of the corners in
    the mesh and [d6 q] the gradients of the six quadratic functions at a quadrature point, in the axes of the mesh. *)
Inductive plate : Type := NO_BENDING | MINDLIN | DKT (P : nat -> nat -> R) (d6 : qpt -> nat -> nat -> R).
Definition pbends (b : plate) : bool := match b with NO_BENDING => false | _ => true end.
(** include_transverse_shear_energy: mindlin_bending_operator.h, dkt_bending_operator.h L107-109 *)
Definition pshears (b : plate) : bool := match b with MINDLIN => true | _ => false end.

(** libMesh::Point: difference, cross product, norm *)
Definition vsub (x y : nat -> R) (k : nat) : R := x k - y k.
Definition vcross (x y : nat -> R) (k : nat) : R := match k with
  | 0%nat => x 1%nat * y 2%nat - x 2%nat * y 1%nat | 1%nat => x 2%nat * y 0%nat - x 0%nat * y 2%nat
  | _ => x 0%nat * y 1%nat - x 1%nat * y 0%nat end.
Definition vnorm (x : nat -> R) : R := sqrt (x 0%nat * x 0%nat + x 1%nat * x 1%nat + x 2%nat * x 2%nat).
Definition vdiv (x : nat -> R) (s : R) (k : nat) : R := x k / s.

(** dkt_bending_operator.h L247-254 _get_edge_length *)
Definition edge_length (P : nat -> nat -> R) (i j : nat) : R := vnorm (vsub (P j) (P i)).
(** L257-293 _get_edge_normal_sine_cosine: (sine, cosine) *)
Definition edge_normal (P : nat -> nat -> R) (i j : nat) : R * R :=
  let v3 := vcross (vsub (P 1%nat) (P 0%nat)) (vsub (P 2%nat) (P 0%nat)) in
  let v1 := vdiv v3 (vnorm v3) in
  let v3 := vcross (vsub (P j) (P i)) v1 in
  let v3 := vdiv v3 (vnorm v3) in
  (v3 1%nat, v3 0%nat).
(** L296-380 _calculate_dkt_shape_functions: entries of betax and betay for w, thetax and thetay of the three nodes *)
Definition dkt_shape (P : nat -> nat -> R) (phi : nat -> R) : (nat -> R) * (nat -> R) :=
  let N1 := phi 0%nat in let N2 := phi 1%nat in let N3 := phi 2%nat in
  let N4 := phi 4%nat in let N5 := phi 5%nat in let N6 := phi 3%nat in
  let '(sin4, cos4) := edge_normal P 1 2 in
  let '(sin5, cos5) := edge_normal P 2 0 in
  let '(sin6, cos6) := edge_normal P 0 1 in
  let l12 := edge_length P 0 1 in
  let l23 := edge_length P 1 2 in
  let l31 := edge_length P 2 0 in
  let betax := fun k => match k with
    | 0%nat => 3/2 * (N5 * sin5 / l31 - N6 * sin6 / l12)
    | 1%nat => 3/2 * (N6 * sin6 / l12 - N4 * sin4 / l23)
    | 2%nat => 3/2 * (N4 * sin4 / l23 - N5 * sin5 / l31)
    | 3%nat => (-3/4) * (N5 * sin5 * cos5 + N6 * sin6 * cos6)
    | 4%nat => (-3/4) * (N4 * sin4 * cos4 + N6 * sin6 * cos6)
    | 5%nat => (-3/4) * (N5 * sin5 * cos5 + N4 * sin4 * cos4)
    | 6%nat => N1 + N5 * (1/2 * cos5 * cos5 - 1/4 * sin5 * sin5) + N6 * (1/2 * cos6 * cos6 - 1/4 * sin6 * sin6)
    | 7%nat => N2 + N4 * (1/2 * cos4 * cos4 - 1/4 * sin4 * sin4) + N6 * (1/2 * cos6 * cos6 - 1/4 * sin6 * sin6)
    | _ => N3 + N5 * (1/2 * cos5 * cos5 - 1/4 * sin5 * sin5) + N4 * (1/2 * cos4 * cos4 - 1/4 * sin4 * sin4)
    end in
  let betay := fun k => match k with
    | 0%nat => 3/2 * (- N5 * cos5 / l31 + N6 * cos6 / l12)
    | 1%nat => 3/2 * (- N6 * cos6 / l12 + N4 * cos4 / l23)
    | 2%nat => 3/2 * (- N4 * cos4 / l23 + N5 * cos5 / l31)
    | 3%nat => - N1 + N5 * (1/4 * cos5 * cos5 - 1/2 * sin5 * sin5) + N6 * (1/4 * cos6 * cos6 - 1/2 * sin6 * sin6)
    | 4%nat => - N2 + N4 * (1/4 * cos4 * cos4 - 1/2 * sin4 * sin4) + N6 * (1/4 * cos6 * cos6 - 1/2 * sin6 * sin6)
    | 5%nat => - N3 + N5 * (1/4 * cos5 * cos5 - 1/2 * sin5 * sin5) + N4 * (1/4 * cos4 * cos4 - 1/2 * sin4 * sin4)
    | 6%nat => (- 1) * betax 3%nat
    | 7%nat => (- 1) * betax 4%nat
    | _ => (- 1) * betax 5%nat
    end in
  (betax, betay).

Definition pscal (s : R) (v : nat -> R) (a : nat) : R := v a * s.
(** three entries of a vector of nine, starting at [k] *)
Definition part (v : nat -> R) (k a : nat) : R := if Nat.ltb a 3 then v (k + a)%nat else 0.

(** mindlin_bending_operator.cpp L56-90 and dkt_bending_operator.h L178-243 initialize_bending_strain_operator_for_z;
    the shape functions of the second have three entries *)
Definition pbend_z (b : plate) (q : qpt) (z : R) : opr :=
  match b with
  | NO_BENDING => zop
  | MINDLIN =>
      let sx := pscal z (fun a => dphi q a 0%nat) in
      let sy := pscal z (fun a => dphi q a 1%nat) in
      oset (oset (oset (oset zop 0 4 sx) 2 3 (pscal (-1) sx)) 2 4 sy) 1 3 (pscal (-1) sy)
  | DKT P d6 =>
      let '(bxdx, bydx) := dkt_shape P (fun i => d6 q i 0%nat) in
      let '(bxdy, bydy) := dkt_shape P (fun i => d6 q i 1%nat) in
      let bxdy := fun k => bxdy k + bydx k in
      let rows := fun (o : opr) r v =>
        oset (oset (oset o r 2 (pscal z (part v 0))) r 3 (pscal z (part v 3))) r 4 (pscal z (part v 6)) in
      rows (rows (rows zop 0%nat bxdx) 1%nat bydy) 2%nat bxdy
  end.
(** initialize_bending_strain_operator: z = 1 *)
Definition pbend (b : plate) (q : qpt) : opr := pbend_z b q 1.

(** product of a matrix with [k] columns and an array of rows, transpose, matrix times vector *)
Definition mm (k : nat) (A : nat -> nat -> R) (M : rmat) : rmat := fun r c a => sum k (fun i => A r i * M i c a).
Definition mtr (A : nat -> nat -> R) (i j : nat) : R := A j i.
Definition mv (k : nat) (A : nat -> nat -> R) (v : nat -> R) (r : nat) : R := sum k (fun i => A r i * v i).
Definition vplus (v w : nat -> R) (r : nat) : R := v r + w r.
(** a stress vector as a 2x2 matrix *)
Definition sigma (v : nat -> R) (i j : nat) : R := match i, j with
  | 0%nat, 0%nat => v 0%nat | 1%nat, 1%nat => v 1%nat | _, _ => v 2%nat end.

(** stiffness matrices A, B and D of the section *)
Record psect : Type := mkP { pA : nat -> nat -> R; pB : nat -> nat -> R; pD : nat -> nat -> R }.

Section Element.
Variable n : nat.                  (* n_phi *)
Variable nl : bool.                (* _property.strain_type() == NONLINEAR_STRAIN *)
Variable b : plate.                (* _property.bending_model(_elem) *)
Variable t : frame.                (* axes of the element *)

(** structural_element_2d.cpp L143-250 initialize_green_lagrange_strain_operator: Bmat_lin, Bmat_nl_x, Bmat_nl_y,
    Bmat_nl_u, Bmat_nl_v; the last four stay zero for the linear strain *)
Definition dX (q : qpt) (a : nat) : R := dphi q a 0%nat.
Definition dY (q : qpt) (a : nat) : R := dphi q a 1%nat.
Definition b_lin (q : qpt) : opr := oset (oset (oset (oset zop 0 0 (dX q)) 2 1 (dX q)) 1 1 (dY q)) 2 0 (dY q).
Definition b_x (q : qpt) : opr := if nl then oset (oset zop 0 0 (dX q)) 1 1 (dX q) else zop.
Definition b_y (q : qpt) : opr := if nl then oset (oset zop 0 0 (dY q)) 1 1 (dY q) else zop.
Definition b_u (q : qpt) : opr := if nl then oset (oset zop 0 0 (dX q)) 1 0 (dY q) else zop.
Definition b_v (q : qpt) : opr := if nl then oset (oset zop 0 1 (dX q)) 1 1 (dY q) else zop.
(** L205-235: F, E and the strain, mat_x, mat_y *)
Definition gl_strain (q : qpt) (u : dofs) : nat -> R :=
  if nl then
    let ddx := vm n (b_x q) u in let ddy := vm n (b_y q) u in
    let F := fun i j => match j with O => ddx i | _ => ddy i end in
    let E := fun i j => 1/2 * (F i j + F j i + sum 2 (fun k => F k i * F k j)) in
    fun r => match r with 0%nat => E 0%nat 0%nat | 1%nat => E 1%nat 1%nat | _ => E 0%nat 1%nat + E 1%nat 0%nat end
  else vm n (b_lin q) u.
Definition mat_x (q : qpt) (u : dofs) (r k : nat) : R := if nl then
  match r with 0%nat => vm n (b_x q) u k | 2%nat => vm n (b_y q) u k | _ => 0 end else 0.
Definition mat_y (q : qpt) (u : dofs) (r k : nat) : R := if nl then
  match r with 1%nat => vm n (b_y q) u k | 2%nat => vm n (b_x q) u k | _ => 0 end else 0.
(** L56-101 initialize_von_karman_strain_operator: Bmat_vk, vk_dwdxi_mat and the strain; L105-140 with _local_sol_sens
    gives vk_dwdxi_mat_sens *)
Definition b_vk (q : qpt) : opr := oset (oset zop 0 2 (dX q)) 1 2 (dY q).
Definition dwdx (q : qpt) (u : dofs) : R := sum n (fun a => dX q a * u 2%nat a).
Definition dwdy (q : qpt) (u : dofs) : R := sum n (fun a => dY q a * u 2%nat a).
Definition vk_mat (q : qpt) (u : dofs) (r k : nat) : R := match r, k with
  | 0%nat, 0%nat => dwdx q u | 2%nat, 1%nat => dwdx q u | 1%nat, 1%nat => dwdy q u | 2%nat, 0%nat => dwdy q u | _, _ => 0 end.
Definition vk_eps (q : qpt) (u : dofs) (r : nat) : R := match r with
  | 0%nat => 1/2 * dwdx q u * dwdx q u | 1%nat => 1/2 * dwdy q u * dwdy q u | _ => dwdx q u * dwdy q u end.

(** L1766-2020 _internal_residual_operation; if_vk and the strain type are the same flag *)
Definition internal_qp (S : qpt -> psect) (u : dofs) (req : bool) (fj : dofs * dmat) (q : qpt) : dofs * dmat :=
  let '(f, j) := fj in
  let A := pA (S q) in let B := pB (S q) in let D := pD (S q) in
  let w := jxw q in
  let Bl := b_lin q in let Bx := b_x q in let By := b_y q in let Bu := b_u q in let Bv := b_v q in
  let Bb := pbend b q in let Bk := b_vk q in
  let mx := mat_x q u in let my := mat_y q u in let K := vk_mat q u in
  let em := gl_strain q u in
  let N := mv 3 A em in
  let N := if pbends b then
      let N := vplus N (mv 3 B (vm n Bb u)) in
      if nl then vplus N (mv 3 A (vk_eps q u)) else N
    else N in
  let em := if pbends b && nl then vplus em (vk_eps q u) else em in
  let f := plusf w (vmt 3 Bl N) f in
  let f := if nl then plusf w (vmt 2 By (mv 3 (mtr my) N)) (plusf w (vmt 2 Bx (mv 3 (mtr mx) N)) f) else f in
  let f := if pbends b then
      let f := if nl then plusf w (vmt 2 Bk (mv 3 (mtr K) N)) f else f in
      let f := plusf w (vmt 3 Bb (mv 3 (mtr B) em)) f in
      plusf w (vmt 3 Bb (mv 3 D (vm n Bb u))) f
    else f in
  if req then
    let j := plusj w (rmt 3 Bl (lm 3 Bl A)) j in
    let j := if nl then
        let j := plusj w (rmt 3 Bl (mm 3 A (lm 2 Bx mx))) j in
        let j := plusj w (rmt 3 Bl (mm 3 A (lm 2 By my))) j in
        let j := plusj w (rmt 2 Bx (mm 3 (mtr mx) (lm 3 Bl A))) j in
        let j := plusj w (rmt 2 Bx (mm 3 (mtr mx) (mm 3 A (lm 2 Bx mx)))) j in
        let j := plusj w (rmt 2 Bx (mm 3 (mtr mx) (mm 3 A (lm 2 By my)))) j in
        let j := plusj w (rmt 2 By (mm 3 (mtr my) (lm 3 Bl A))) j in
        let j := plusj w (rmt 2 By (mm 3 (mtr my) (mm 3 A (lm 2 Bx mx)))) j in
        let j := plusj w (rmt 2 By (mm 3 (mtr my) (mm 3 A (lm 2 By my)))) j in
        let j := plusj w (rmt 2 Bu (lm 2 Bu (sigma N))) j in
        plusj w (rmt 2 Bv (lm 2 Bv (sigma N))) j
      else j in
    let j := if pbends b then
        let j := if nl then
          let j := plusj w (rmt 3 Bl (mm 3 A (lm 2 Bk K))) j in
          let j := plusj w (rmt 2 Bk (mm 3 (mtr K) (lm 3 Bl A))) j in
          let j := plusj w (rmt 2 Bk (lm 2 Bk (sigma N))) j in
          let j := plusj w (rmt 2 Bk (mm 3 (mtr K) (mm 3 A (lm 2 Bk K)))) j in
          let j := plusj w (rmt 3 Bb (mm 3 (mtr B) (lm 2 Bk K))) j in
          plusj w (rmt 2 Bk (mm 3 (mtr K) (lm 3 Bb B))) j
        else j in
        let j := plusj w (rmt 3 Bb (lm 3 Bl (mtr B))) j in
        let j := plusj w (rmt 3 Bl (lm 3 Bb B)) j in
        plusj w (rmt 3 Bb (lm 3 Bb D)) j
      else j in
    (f, j)
  else (f, j).

(** mindlin_bending_operator.cpp L312-375 _transverse_shear_operations *)
Definition b_shear (q : qpt) : opr :=
  oset (oset (oset (oset zop 0 2 (dX q)) 1 2 (dY q)) 0 4 (phi q)) 1 3 (pscal (-1) (phi q)).
Definition shear_qp (G : qpt -> nat -> nat -> R) (u : dofs) (req : bool) (fj : dofs * dmat) (q : qpt) : dofs * dmat :=
  let '(f, j) := fj in
  let f := plusf (jxw q) (vmt 2 (b_shear q) (mv 2 (G q) (vm n (b_shear q) u))) f in
  if req then (f, plusj (jxw q) (rmt 2 (b_shear q) (lm 2 (b_shear q) (G q))) j) else (f, j).

(** the local vector and matrix; [sq] are the points of the reduced quadrature of mindlin_bending_operator.cpp L95-150 *)
Definition local_internal (qs sq : list qpt) (S : qpt -> psect) (G : qpt -> nat -> nat -> R) (u : dofs) (req : bool) : dofs * dmat :=
  let fj := fold_left (internal_qp S u req) qs (zf, zj) in
  if pshears b then fold_left (shear_qp G u req) sq fj else fj.
(** structural_element_2d.cpp L1215-1222: the diagonal entries of the rotation about the normal *)
Definition drilling (j : dmat) : dmat := fun c a d e =>
  if (Nat.eqb c 5 && Nat.eqb d 5 && Nat.eqb a e)%bool then 1 / 10 ^ 8 else j c a d e.
(** L1076-1230 internal_residual; [U] are the unknowns in the global axes *)
Definition internal_residual (qs sq : list qpt) (S : qpt -> psect) (G : qpt -> nat -> nat -> R) (U : dofs) (req : bool)
    (f : dofs) (j : dmat) : dofs * dmat :=
  let s := local_internal qs sq S G (to_local t U) req in
  (plusf 1 (to_global t (fst s)) f, if req then plusj 1 (mat_to_global t (drilling (snd s))) j else j).
(** L1234-1398 internal_residual_sensitivity; [S'], [G'] are the derivatives of the section stiffness, [dep] is
    _property.depends_on(p) *)
Definition internal_residual_sensitivity (dep : bool) (qs sq : list qpt) (S' : qpt -> psect) (G' : qpt -> nat -> nat -> R)
    (U : dofs) (req : bool) (f : dofs) (j : dmat) : dofs * dmat :=
  if dep then
    let s := local_internal qs sq S' G' (to_local t U) req in
    (plusf 1 (to_global t (fst s)) f, if req then plusj 1 (mat_to_global t (snd s)) j else j)
  else (f, j).

(** L1571-1760 internal_residual_jac_dot_state_sensitivity; [u] and [us] are _local_sol and _local_sol_sens.  Without a
    bending operator the operators of bending and of the von Karman strain stay zero. *)
Definition jac_dot_qp (S : qpt -> psect) (u us : dofs) (j : dmat) (q : qpt) : dmat :=
  let A := pA (S q) in let B := pB (S q) in
  let w := jxw q in
  let Bl := b_lin q in let Bb := pbend b q in
  let Bk := if pbends b then b_vk q else zop in
  let K := fun r k => if pbends b then vk_mat q u r k else 0 in
  let K' := fun r k => if pbends b then vk_mat q us r k else 0 in
  let N := mv 3 A (vm n Bl us) in
  let N := if pbends b then
      let e := fun r => match r with
        | 0%nat => K 0%nat 0%nat * K' 0%nat 0%nat | 1%nat => K 1%nat 1%nat * K' 1%nat 1%nat
        | _ => K 0%nat 0%nat * K' 1%nat 1%nat + K 1%nat 1%nat * K' 0%nat 0%nat end in
      vplus (vplus N (mv 3 B (vm n Bb us))) (mv 3 A e)
    else N in
  let j := plusj w (rmt 2 Bk (mm 3 (mtr K') (lm 3 Bl A))) j in
  let j := plusj w (rmt 2 Bk (mm 3 (mtr K') (lm 3 Bb B))) j in
  let j := plusj w (rmt 2 Bk (mm 3 (mtr K') (mm 3 A (lm 2 Bk K)))) j in
  let j := plusj w (rmt 2 Bk (mm 3 (mtr K) (mm 3 A (lm 2 Bk K')))) j in
  let j := plusj w (rmt 3 Bl (mm 3 A (lm 2 Bk K'))) j in
  let j := plusj w (rmt 3 Bb (mm 3 (mtr B) (lm 2 Bk K'))) j in
  plusj w (rmt 2 Bk (lm 2 Bk (sigma N))) j.
Definition jac_dot_state_sensitivity (qs : list qpt) (S : qpt -> psect) (U Us : dofs) (j : dmat) : dmat :=
  if nl then plusj 1 (mat_to_global t (fold_left (jac_dot_qp S (to_local t U) (to_local t Us)) qs zj)) j else j.

(** L2025-2046: the prestress matrices as vectors *)
Definition pvec (P : nat -> nat -> R) (r : nat) : R := match r with
  | 0%nat => P 0%nat 0%nat | 1%nat => P 1%nat 1%nat | _ => P 0%nat 1%nat end.
(** L2054-2198 prestress_residual; [PA], [PB] are prestress_A_matrix and prestress_B_matrix (2x2), [on] is
    _property.if_prestressed().  prestress_residual_sensitivity, L2205-2350, is the same code with the derivatives. *)
Definition prestress_qp (PA PB : qpt -> nat -> nat -> R) (u : dofs) (req : bool) (fj : dofs * dmat) (q : qpt) : dofs * dmat :=
  let '(f, j) := fj in
  let w := jxw q in
  let f := plusf w (vmt 3 (b_lin q) (pvec (PA q))) f in
  let f := if pbends b then
      let f := if nl then plusf w (vmt 2 (b_vk q) (mv 3 (mtr (vk_mat q u)) (pvec (PA q)))) f else f in
      plusf w (vmt 3 (pbend b q) (pvec (PB q))) f
    else f in
  let j := if req && pbends b && nl then plusj w (rmt 2 (b_vk q) (lm 2 (b_vk q) (PA q))) j else j in
  (f, j).
Definition prestress_residual (on : bool) (qs : list qpt) (PA PB : qpt -> nat -> nat -> R) (U : dofs) (req : bool)
    (f : dofs) (j : dmat) : dofs * dmat :=
  if on then
    let s := fold_left (prestress_qp PA PB (to_local t U) req) qs (zf, zj) in
    (plusf 1 (to_global t (fst s)) f, if req && nl then plusj 1 (mat_to_global t (snd s)) j else j)
  else (f, j).

(** L3085-3195 of thermal_residual and L3300-3410 of its sensitivity: [vA], [vB] are the vectors for the membrane and the
    bending strain.  Bmat_vk stays zero without a bending operator. *)
Definition thermal_qp (vA vB : qpt -> nat -> R) (u : dofs) (req : bool) (fj : dofs * dmat) (q : qpt) : dofs * dmat :=
  let '(f, j) := fj in
  let w := jxw q in
  let N := vA q in
  let Bk := if pbends b then b_vk q else zop in
  let f := plusf w (vmt 3 (b_lin q) N) f in
  let f := if nl then plusf w (vmt 2 (b_y q) (mv 3 (mtr (mat_y q u)) N))
                        (plusf w (vmt 2 (b_x q) (mv 3 (mtr (mat_x q u)) N)) f) else f in
  let f := if pbends b then
      let f := plusf w (vmt 3 (pbend b q) (vB q)) f in
      if nl then plusf w (vmt 2 Bk (mv 3 (mtr (vk_mat q u)) N)) f else f
    else f in
  let j := if req && nl then
      let j := plusj w (rmt 2 (b_u q) (lm 2 (b_u q) (sigma N))) j in
      let j := plusj w (rmt 2 (b_v q) (lm 2 (b_v q) (sigma N))) j in
      plusj w (rmt 2 Bk (lm 2 Bk (sigma N))) j
    else j in
  (f, j).
Definition thermal (qs : list qpt) (vA vB : qpt -> nat -> R) (u : dofs) (req : bool) : dofs * dmat :=
  fold_left (thermal_qp vA vB u req) qs (zf, zj).
(** L3012-3200 thermal_residual; [EA], [EB] are the single columns of the thermal expansion matrices, [dt] is the
    temperature above the reference, [scaling] the optional thermal_jacobian_scaling *)
Definition thermal_residual (scaling : option R) (qs : list qpt) (EA EB : qpt -> nat -> R) (dt : qpt -> R) (U : dofs) (req : bool)
    (f : dofs) (j : dmat) : dofs * dmat :=
  let s := thermal qs (fun q r => EA q r * dt q) (fun q r => EB q r * dt q) (to_local t U) req in
  (plusf (- 1) (to_global t (fst s)) f,
   if req && nl then plusj (- match scaling with Some x => x | None => 1 end) (mat_to_global t (snd s)) j else j).
(** L3206-3415 thermal_residual_sensitivity *)
Definition thermal_residual_sensitivity (qs : list qpt) (EA EB EA' EB' : qpt -> nat -> R) (dt dt' : qpt -> R) (U : dofs) (req : bool)
    (f : dofs) (j : dmat) : dofs * dmat :=
  let vA := fun q r => EA q r * dt' q + EA' q r * dt q in
  let vB := fun q r => EB q r * dt' q + EB' q r * dt q in
  let s := thermal qs vA vB (to_local t U) req in
  (plusf (- 1) (to_global t (fst s)) f, if req && nl then plusj (- 1) (mat_to_global t (snd s)) j else j).
End Element.
