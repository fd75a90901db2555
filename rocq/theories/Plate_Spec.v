(** What a plate element is expected to deliver: the stored energy of a plate with membrane, bending and transverse shear
    strain, integrals being sums over quadrature points. *)
From Coq Require Import Reals.
From Coquelicot Require Import Coquelicot.
From Coq Require Import List Arith Bool.
From Verif Require Import Base Sens_Spec Solid_Model Solid_Spec Dof6_Model Beam_Spec Plate_Model.
Import ListNotations.
Open Scope R_scope.

(** derivative of an interpolated unknown along the axis i of the element *)
Definition grad (n : nat) (q : qpt) (u : dofs) (c i : nat) : R := sum n (fun a => dphi q a i * u c a).
Definition flag (x : bool) (y : R) : R := if x then y else 0.

(** strain of the middle surface: Green-Lagrange for the in-plane displacements if [nl], and the terms of the deflection
    if [vk]; the third component is the engineering shear strain *)
Definition membrane (nl vk : bool) (n : nat) (q : qpt) (u : dofs) (r : nat) : R :=
  let g := grad n q u in
  let quad := fun i j => flag nl (g 0%nat i * g 0%nat j + g 1%nat i * g 1%nat j) + flag vk (g 2%nat i * g 2%nat j) in
  match r with
  | 0%nat => g 0%nat 0%nat + 1/2 * quad 0%nat 0%nat
  | 1%nat => g 1%nat 1%nat + 1/2 * quad 1%nat 1%nat
  | _ => g 0%nat 1%nat + g 1%nat 0%nat + quad 0%nat 1%nat
  end.

(** rotation of the fibre in x and y direction at a node: u_x = z * beta_x, u_y = z * beta_y *)
Definition node_beta (u : dofs) (a k : nat) : R := match k with O => u 4%nat a | _ => - u 3%nat a end.
(** the discrete Kirchhoff triangle, in the plane of the element: along the edge from node i to node j the deflection is
    the cubic given by deflections and rotations at the ends, at the middle of the edge the fibre is normal to it, and the
    rotation about the edge is the mean of its values at the ends *)
Definition mid_beta (P : nat -> nat -> R) (i j : nat) (u : dofs) (k : nat) : R :=
  let ex := P j 0%nat - P i 0%nat in
  let ey := P j 1%nat - P i 1%nat in
  let l := sqrt (ex ^ 2 + ey ^ 2) in
  let tang := fun k => match k with O => ex / l | _ => ey / l end in
  let norm := fun k => match k with O => ey / l | _ => - ex / l end in
  let along := fun v a => node_beta u a 0%nat * v 0%nat + node_beta u a 1%nat * v 1%nat in
  let slope := 3/2 * (u 2%nat j - u 2%nat i) / l - 1/4 * (- along tang i + - along tang j) in   (* dw/ds in the middle *)
  - slope * tang k + (along norm i + along norm j) / 2 * norm k.
Definition dkt_beta (P : nat -> nat -> R) (u : dofs) (m k : nat) : R := match m with
  | 0%nat => node_beta u 0 k | 1%nat => node_beta u 1 k | 2%nat => node_beta u 2 k
  | 3%nat => mid_beta P 0 1 u k | 4%nat => mid_beta P 1 2 u k | _ => mid_beta P 2 0 u k end.
(** derivative of the fibre rotation k along the axis i *)
Definition beta_grad (b : plate) (n : nat) (q : qpt) (u : dofs) (k i : nat) : R := match b with
  | NO_BENDING => 0
  | MINDLIN => sum n (fun a => dphi q a i * node_beta u a k)
  | DKT P d6 => sum 6 (fun m => d6 q m i * dkt_beta P u m k) end.
Definition curvature (b : plate) (n : nat) (q : qpt) (u : dofs) (r : nat) : R :=
  let g := beta_grad b n q u in
  match r with 0%nat => g 0%nat 0%nat | 1%nat => g 1%nat 1%nat | _ => g 0%nat 1%nat + g 1%nat 0%nat end.
(** transverse shear strain *)
Definition pgamma (n : nat) (q : qpt) (u : dofs) (i : nat) : R :=
  grad n q u 2 i + sum n (fun a => phi q a * node_beta u a i).

(** energy of a section with the stiffness matrices A, B, D *)
Definition pdensity (nl : bool) (b : plate) (n : nat) (S : psect) (q : qpt) (u : dofs) : R :=
  let e := membrane nl (nl && pbends b) n q u in
  let k := curvature b n q u in
  1/2 * sum 3 (fun i => sum 3 (fun l => e i * (pA S i l * e l)))
  + sum 3 (fun i => sum 3 (fun l => e i * (pB S i l * k l)))
  + 1/2 * sum 3 (fun i => sum 3 (fun l => k i * (pD S i l * k l))).
Definition pshear_density (n : nat) (G : nat -> nat -> R) (q : qpt) (u : dofs) : R :=
  1/2 * sum 2 (fun i => sum 2 (fun l => pgamma n q u i * (G i l * pgamma n q u l))).
Definition plate_energy (nl : bool) (b : plate) (n : nat) (qs sq : list qpt) (S : qpt -> psect) (G : qpt -> nat -> nat -> R) (u : dofs) : R :=
  integral qs (fun q => pdensity nl b n (S q) q u) + (if pshears b then integral sq (fun q => pshear_density n (G q) q u) else 0).

Definition msym (m : nat) (A : nat -> nat -> R) : Prop := forall i j, (i < m)%nat -> (j < m)%nat -> A i j = A j i.
Definition psym (S : psect) : Prop := msym 3 (pA S) /\ msym 3 (pD S).
(** the DKT operator is for triangles with three nodes; here the triangle lies in a plane of constant z of the mesh and
    is numbered counterclockwise *)
Definition ccw (P : nat -> nat -> R) : Prop :=
  P 1%nat 2%nat = P 0%nat 2%nat /\ P 2%nat 2%nat = P 0%nat 2%nat /\
  0 < (P 1%nat 0%nat - P 0%nat 0%nat) * (P 2%nat 1%nat - P 0%nat 1%nat) - (P 1%nat 1%nat - P 0%nat 1%nat) * (P 2%nat 0%nat - P 0%nat 0%nat).
Definition pfits (b : plate) (n : nat) : Prop := match b with DKT P _ => n = 3%nat /\ ccw P | _ => True end.

(** stiffness 1e-8 of the rotation about the normal of the element *)
Definition drill (n : nat) (t : frame) (d v : dofs) : R := 1 / 10 ^ 8 * sum n (fun a => in_axes t d 5 a * in_axes t v 5 a).

(** matrices of the section, or a vector, that depend on a parameter *)
Definition mat_der (m : nat) (A : R -> nat -> nat -> R) (A' : nat -> nat -> R) (t0 : R) : Prop := forall i l, (i < m)%nat -> (l < m)%nat ->
  is_derive (fun s => A s i l) t0 (A' i l).
Definition psect_der (S : R -> psect) (S' : psect) (t0 : R) : Prop :=
  mat_der 3 (fun s => pA (S s)) (pA S') t0 /\ mat_der 3 (fun s => pB (S s)) (pB S') t0 /\ mat_der 3 (fun s => pD (S s)) (pD S') t0.

(** work of given membrane forces and moments on the strains of the element *)
Definition pwork (nl vk : bool) (b : plate) (n : nat) (qs : list qpt) (N M : qpt -> nat -> R) (u : dofs) : R :=
  integral qs (fun q => sum 3 (fun r => N q r * membrane nl vk n q u r) + sum 3 (fun r => M q r * curvature b n q u r)).

(** small rigid motion of an element whose nodes have the coordinates X in its axes *)
Definition plate_motion (X : nat -> nat -> R) (T Th : nat -> R) : dofs := fun c a => match c with
  | 0%nat => T 0%nat - Th 2%nat * X a 1%nat
  | 1%nat => T 1%nat + Th 2%nat * X a 0%nat
  | 2%nat => T 2%nat + Th 0%nat * X a 1%nat - Th 1%nat * X a 0%nat
  | 3%nat => Th 0%nat | 4%nat => Th 1%nat | _ => Th 2%nat end.
(** the shape functions interpolate constants and coordinates *)
Definition complete2 (n : nat) (X : nat -> nat -> R) (q : qpt) : Prop := sum n (phi q) = 1 /\
  forall i, (i < 2)%nat -> sum n (fun a => dphi q a i) = 0 /\
    forall k, (k < 2)%nat -> sum n (fun a => dphi q a i * X a k) = if Nat.eqb i k then 1 else 0.
(** the six quadratic shape functions of a triangle, whose nodes 3, 4, 5 are the middles of its edges *)
Definition six_nodes (P : nat -> nat -> R) (m k : nat) : R := match m with
  | 3%nat => (P 0%nat k + P 1%nat k) / 2 | 4%nat => (P 1%nat k + P 2%nat k) / 2 | 5%nat => (P 2%nat k + P 0%nat k) / 2 | _ => P m k end.
Definition complete6 (P : nat -> nat -> R) (d6 : nat -> nat -> R) : Prop := forall i, (i < 2)%nat ->
  sum 6 (fun m => d6 m i) = 0 /\ forall k, (k < 2)%nat -> sum 6 (fun m => d6 m i * six_nodes P m k) = if Nat.eqb i k then 1 else 0.
Definition triangle_of (b : plate) (X : nat -> nat -> R) (q : qpt) : Prop := match b with
  | DKT P d6 => complete6 P (d6 q) /\ forall a k, (a < 3)%nat -> (k < 2)%nat -> P a k - P 0%nat k = X a k - X 0%nat k
  | _ => True end.
(** deflection with constant curvatures, and its slopes *)
Record quadratic : Type := mkW { w0 : R; wx : R; wy : R; wxx : R; wxy : R; wyy : R }.
Definition deflection (W : quadratic) (x y : R) : R := w0 W + wx W * x + wy W * y + 1/2 * wxx W * x ^ 2 + wxy W * x * y + 1/2 * wyy W * y ^ 2.
Definition slope (W : quadratic) (k : nat) (x y : R) : R := match k with O => wx W + wxx W * x + wxy W * y | _ => wy W + wxy W * x + wyy W * y end.
(** nodal values of that deflection, the fibres being normal to the bent surface *)
Definition bent (W : quadratic) (P : nat -> nat -> R) (u : dofs) : Prop := forall a, (a < 3)%nat ->
  u 2%nat a = deflection W (P a 0%nat) (P a 1%nat) /\ forall k, (k < 2)%nat -> node_beta u a k = - slope W k (P a 0%nat) (P a 1%nat).
Definition bending_strain (W : quadratic) (z : R) (r : nat) : R := match r with 0%nat => - z * wxx W | 1%nat => - z * wyy W | _ => - z * (2 * wxy W) end.
