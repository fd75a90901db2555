(** What a continuum element is expected to deliver: total Lagrangian elasticity with the Green-Lagrange strain
    (or the small strain), integrals being sums over quadrature points. *)
From Coq Require Import Reals.
From Coquelicot Require Import Coquelicot.
From Coq Require Import List Arith Bool.
From Verif Require Import Base Sens_Spec Solid_Model.
Import ListNotations.
Open Scope R_scope.

Definition integral (qs : list qpt) (g : qpt -> R) : R := total (fun q => jxw q * g q) qs.
Definition delta (i j : nat) : R := if Nat.eqb i j then 1 else 0.
(** gradient d u_i / d x_j of an interpolated field, and the deformation gradient *)
Definition grad (n : nat) (q : qpt) (u : dofs) (i j : nat) : R := sum n (fun a => u i a * dphi q a j).
Definition defgrad (n : nat) (q : qpt) (u : dofs) (i j : nat) : R := delta i j + grad n q u i j.
(** 1/2 (F^T F - I), or its linear part *)
Definition strain (nl : bool) (n : nat) (q : qpt) (u : dofs) (i j : nat) : R :=
  if nl then 1/2 * (sum 3 (fun k => defgrad n q u k i * defgrad n q u k j) - delta i j)
  else 1/2 * (grad n q u i j + grad n q u j i).
(** order of the six components xx, yy, zz, xy, yz, xz; shear components are doubled in a strain vector *)
Definition row1 (r : nat) : nat := match r with 0 => 0 | 1 => 1 | 2 => 2 | 3 => 0 | 4 => 1 | _ => 0 end.
Definition row2 (r : nat) : nat := match r with 0 => 0 | 1 => 1 | 2 => 2 | 3 => 1 | 4 => 2 | _ => 2 end.
Definition strain_vec (nl : bool) (n : nat) (q : qpt) (u : dofs) (r : nat) : R :=
  (if Nat.ltb r 3 then 1 else 2) * strain nl n q u (row1 r) (row2 r).
(** stress vector of a strain vector *)
Definition stress_vec (C : nat -> nat -> R) (e : nat -> R) (r : nat) : R := sum 6 (fun s => C r s * e s).
Definition symmetric6 (C : nat -> nat -> R) : Prop := forall r s, (r < 6)%nat -> (s < 6)%nat -> C r s = C s r.

(** strain energy *)
Definition energy (nl : bool) (n : nat) (qs : list qpt) (C : qpt -> nat -> nat -> R) (u : dofs) : R :=
  integral qs (fun q => 1/2 * sum 6 (fun r => strain_vec nl n q u r * stress_vec (C q) (strain_vec nl n q u) r)).
(** energy of the strain in excess of a stress-free strain [e0] *)
Definition energy_from (nl : bool) (n : nat) (qs : list qpt) (C : qpt -> nat -> nat -> R) (e0 : qpt -> nat -> R) (u : dofs) : R :=
  integral qs (fun q => 1/2 * sum 6 (fun r => (strain_vec nl n q u r - e0 q r) *
     stress_vec (C q) (fun s => strain_vec nl n q u s - e0 q s) r)).

(** sum over the displacement unknowns *)
Definition dot (n : nat) (f v : dofs) : R := sum 3 (fun c => sum n (fun a => f c a * v c a)).
Definition times (n : nat) (j : dmat) (v : dofs) (c a : nat) : R := sum 3 (fun d => sum n (fun b => j c a d b * v d b)).
(** displacements that depend on a parameter t, with derivatives [du] at t0 *)
Definition history (n : nat) (t0 : R) (u : R -> dofs) (du : dofs) : Prop :=
  forall c a, (c < 3)%nat -> (a < n)%nat -> is_derive (fun t => u t c a) t0 (du c a).
Definition shift (u v : dofs) (s : R) : dofs := fun c a => u c a + s * v c a.

(** [x] holds the coordinates of the nodes: the shape functions interpolate constants and coordinates *)
Definition complete (n : nat) (x : dofs) (qs : list qpt) : Prop :=
  forall q, In q qs -> (forall j, (j < 3)%nat -> sum n (fun a => dphi q a j) = 0) /\
    (forall i j, (i < 3)%nat -> (j < 3)%nat -> grad n q x i j = delta i j).
Definition partition (n : nat) (qs : list qpt) : Prop := forall q, In q qs -> sum n (phi q) = 1.
(** Q is orthogonal, W is skew *)
Definition orthogonal (Q : nat -> nat -> R) : Prop :=
  forall i j, (i < 3)%nat -> (j < 3)%nat -> sum 3 (fun k => Q k i * Q k j) = delta i j.
Definition skew (W : nat -> nat -> R) : Prop := forall i j, (i < 3)%nat -> (j < 3)%nat -> W i j = - W j i.
(** displacement that takes the deformed body x + u to Q (x + u) + t *)
Definition superposed (Q : nat -> nat -> R) (t : nat -> R) (x u : dofs) : dofs :=
  fun c a => sum 3 (fun k => Q c k * (x k a + u k a)) + t c - x c a.
(** linearized rotation and translation *)
Definition small_rigid (W : nat -> nat -> R) (t : nat -> R) (x : dofs) : dofs :=
  fun c a => sum 3 (fun k => W c k * x k a) + t c.
Definition no_disp : dofs := fun _ _ => 0.
Definition no_f : dofs := fun _ _ => 0.
Definition no_j : dmat := fun _ _ _ _ => 0.
(** interpolated vector field *)
Definition field_at (n : nat) (q : qpt) (u : dofs) (c : nat) : R := sum n (fun a => phi q a * u c a).
