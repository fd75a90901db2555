(** What a beam element is expected to deliver: the stored energy of a beam with axial, torsional, bending and shear
    strain, integrals being sums over quadrature points. *)
From Coq Require Import Reals.
From Coquelicot Require Import Coquelicot.
From Coq Require Import List Arith Bool.
From Verif Require Import Base Sens_Spec Solid_Model Solid_Spec Dof6_Model Beam_Model.
Import ListNotations.
Open Scope R_scope.

(** sums over all unknowns of the element *)
Definition dot6 (n : nat) (f v : dofs) : R := sum 6 (fun c => sum n (fun a => f c a * v c a)).
Definition times6 (n : nat) (j : dmat) (v : dofs) (c a : nat) : R := sum 6 (fun d => sum n (fun b => j c a d b * v d b)).
Definition history6 (n : nat) (t0 : R) (u : R -> dofs) (du : dofs) : Prop :=
  forall c a, (c < 6)%nat -> (a < n)%nat -> is_derive (fun t => u t c a) t0 (du c a).
Definition minusf (f g : dofs) : dofs := fun c a => f c a - g c a.
Definition minusj (f g : dmat) : dmat := fun c a d b => f c a d b - g c a d b.
(** unknowns measured in the axes of the element: columns of [t] *)
Definition in_axes (t : frame) (u : dofs) (c a : nat) : R :=
  match t with None => u c a | Some t => sum 3 (fun k => t k (c mod 3)%nat * u (3 * (c / 3) + k)%nat a) end.

(** value and derivative along the axis of an interpolated unknown *)
Definition value (n : nat) (q : qpt) (u : dofs) (c : nat) : R := sum n (fun a => phi q a * u c a).
Definition dx (n : nat) (q : qpt) (u : dofs) (c : nat) : R := sum n (fun a => dphi q a 0%nat * u c a).

(** second derivative at x of the cubic on [0, L] with values p1, p2 and slopes t1, t2 at the ends *)
Definition cubic (c0 c1 c2 c3 x : R) : R := c0 + c1 * x + c2 * x ^ 2 + c3 * x ^ 3.
Definition cubic' (c1 c2 c3 x : R) : R := c1 + 2 * c2 * x + 3 * c3 * x ^ 2.
Definition cubic'' (c2 c3 x : R) : R := 2 * c2 + 6 * c3 * x.
Definition hermite'' (L p1 t1 p2 t2 x : R) : R :=
  cubic'' ((3 * (p2 - p1) / L - 2 * t1 - t2) / L) ((2 * (p1 - p2) / L + t1 + t2) / L ^ 2) x.

(** axial strain of the axis, twist, curvature strains: a fibre at (y, z) has the strain
    axial + y * curv_y + z * curv_z.  Rotations are about the axes: theta_z = v', theta_y = - w' without shear. *)
Definition axial (vk : bool) (n : nat) (q : qpt) (u : dofs) : R :=
  dx n q u 0 + (if vk then 1/2 * (dx n q u 1 ^ 2 + dx n q u 2 ^ 2) else 0).
Definition twist (n : nat) (q : qpt) (u : dofs) : R := dx n q u 3.
Definition curv_y (b : bending) (n : nat) (q : qpt) (u : dofs) : R := match b with
  | NO_BENDING => 0 | TIMOSHENKO => - dx n q u 5
  | BERNOULLI L xi => - hermite'' L (u 1 0)%nat (u 5 0)%nat (u 1 1)%nat (u 5 1)%nat (L * (1 + xi q) / 2) end.
Definition curv_z (b : bending) (n : nat) (q : qpt) (u : dofs) : R := match b with
  | NO_BENDING => 0 | TIMOSHENKO => dx n q u 4
  | BERNOULLI L xi => - hermite'' L (u 2 0)%nat (- u 4 0)%nat (u 2 1)%nat (- u 4 1)%nat (L * (1 + xi q) / 2) end.
(** shear strains of the Timoshenko beam *)
Definition gamma (n : nat) (q : qpt) (u : dofs) (i : nat) : R := match i with
  | O => dx n q u 1 - value n q u 5 | _ => dx n q u 2 + value n q u 4 end.

(** energy of a section with the stiffness matrices: (axial, twist), coupling and (bending about z, about y) *)
Definition density (vk : bool) (b : bending) (n : nat) (S : sect) (q : qpt) (u : dofs) : R :=
  let e := axial (vk && bends b) n q u in
  let k := fun i => match i with O => curv_y b n q u | _ => curv_z b n q u end in
  1/2 * (sA S 0%nat 0%nat * e ^ 2 + sA S 1%nat 1%nat * twist n q u ^ 2)
  + e * sum 2 (fun i => sB S 0%nat i * k i)
  + 1/2 * sum 2 (fun i => sum 2 (fun l => k i * (sD S i l * k l))).
Definition shear_density (n : nat) (G : nat -> nat -> R) (q : qpt) (u : dofs) : R :=
  1/2 * sum 2 (fun i => sum 2 (fun l => gamma n q u i * (G i l * gamma n q u l))).
Definition beam_energy (vk : bool) (b : bending) (n : nat) (qs sq : list qpt) (S : qpt -> sect) (G : qpt -> nat -> nat -> R) (u : dofs) : R :=
  integral qs (fun q => density vk b n (S q) q u) + (if shears b then integral sq (fun q => shear_density n (G q) q u) else 0).

(** sections the property cards give: axial force and twist do not couple, D is symmetric *)
Definition regular (S : sect) : Prop := sA S 0%nat 1%nat = 0 /\ sA S 1%nat 0%nat = 0 /\ sD S 0%nat 1%nat = sD S 1%nat 0%nat.
Definition equal_shear (G : nat -> nat -> R) : Prop :=
  G 1%nat 1%nat = G 0%nat 0%nat /\ G 0%nat 1%nat = 0 /\ G 1%nat 0%nat = 0.
(** the Bernoulli operator is for elements with two nodes and a positive length *)
Definition fits (b : bending) (n : nat) : Prop := match b with BERNOULLI L _ => n = 2%nat /\ L <> 0 | _ => True end.
Definition unit_dof (c a : nat) : dofs := fun d b => if (Nat.eqb c d && Nat.eqb a b)%bool then 1 else 0.

(** a section stiffness, or a shear stiffness, that depends on a parameter *)
Definition section_derivative (S : R -> sect) (S' : sect) (t0 : R) : Prop := forall i l, (i < 2)%nat -> (l < 2)%nat ->
  is_derive (fun s => sA (S s) i l) t0 (sA S' i l) /\ is_derive (fun s => sB (S s) i l) t0 (sB S' i l) /\
  is_derive (fun s => sD (S s) i l) t0 (sD S' i l).
Definition matrix_derivative (G : R -> nat -> nat -> R) (G' : nat -> nat -> R) (t0 : R) : Prop := forall i l, (i < 2)%nat -> (l < 2)%nat ->
  is_derive (fun s => G s i l) t0 (G' i l).

(** work of a given axial force, torque and moments on the strains of the element *)
Definition work_of (vk : bool) (b : bending) (n : nat) (qs : list qpt) (N T My Mz : qpt -> R) (u : dofs) : R :=
  integral qs (fun q => N q * axial (vk && bends b) n q u + T q * twist n q u + My q * curv_y b n q u + Mz q * curv_z b n q u).
Definition vector_derivative (m : nat) (v : R -> nat -> R) (v' : nat -> R) (t0 : R) : Prop :=
  forall r, (r < m)%nat -> is_derive (fun s => v s r) t0 (v' r).

(** small rigid motion of an element whose nodes are at the positions x on its axis *)
Definition small_motion (x : nat -> R) (T Th : nat -> R) : dofs := fun c a => match c with
  | 0 => T 0%nat | 1 => (T 1%nat + Th 2%nat * x a)%R | 2 => (T 2%nat - Th 1%nat * x a)%R
  | 3 => Th 0%nat | 4 => Th 1%nat | _ => Th 2%nat end%nat.
(** the shape functions interpolate constants and the position along the axis *)
Definition complete1 (n : nat) (x : nat -> R) (q : qpt) : Prop :=
  sum n (phi q) = 1 /\ sum n (fun a => dphi q a 0%nat) = 0 /\ sum n (fun a => dphi q a 0%nat * x a) = 1.
Definition nodes_at (b : bending) (x : nat -> R) : Prop := match b with BERNOULLI L _ => x 1%nat - x 0%nat = L | _ => True end.
