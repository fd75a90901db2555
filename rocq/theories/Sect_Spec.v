(** Specification of the section cards, independent of how they compute. *)
From Coquelicot Require Import Coquelicot.
From Coq Require Import List Arith Bool Reals.
From Verif Require Import Base Mat_Model Mat_Spec Sect_Model.
Import ListNotations.
Open Scope R_scope.

(** ** Bars *)
(** Integral over the rectangle with sides hy and hz whose centre is at the offsets. *)
Definition over (s : sec) (f : R -> R -> R) : R :=
  RInt (fun y => RInt (fun z => f y z) (s oz_ - s hz_ / 2) (s oz_ + s hz_ / 2)) (s oy_ - s hy_ / 2) (s oy_ + s hy_ / 2).
(** The torsional constant of a rectangle with longer side [a] and shorter side [b] (Roark's formula). *)
Definition roark (a b : R) : R := a * b ^ 3 * (1 / 3 - 21 / 100 * (b / a) * (1 - b ^ 4 / (12 * a ^ 4))).
(** Axial strain at the point (y,z) of a bar with strain [e] and curvatures [ky], [kz] (strain per unit y and per unit z). *)
Definition axial (e ky kz y z : R) : R := e + y * ky + z * kz.
(** Squared speed of the point (y,z) of a section that translates with q0, q1, q2 and turns with q3, q4, q5 about x, y, z. *)
Definition speed2 (q : vec) (y z : R) : R :=
  (q 0%nat + z * q 4%nat - y * q 5%nat) ^ 2 + (q 1%nat - z * q 3%nat) ^ 2 + (q 2%nat + y * q 3%nat) ^ 2.
(** q^T M q *)
Definition quad (m : mat R) (n : nat) (q : vec) : R := sum n (fun i => sum n (fun j => q i * (ent m i j * q j))).
Definition positive_bar (s : sec) : Prop := 0 < s hy_ /\ 0 < s hz_.

(** ** Plates *)
(** Integral through the thickness h of a plate whose middle surface is at the offset. *)
Definition through (s : sec) (f : R -> R) : R := RInt f (s off_ - s h_ / 2) (s off_ + s h_ / 2).
(** i-th stress of the material [C] for the strain e + z k *)
Definition stress_at (C : mat R) (n : nat) (e k : vec) (z : R) (i : nat) : R := sum n (fun j => ent C i j * (e j + z * k j)).
(** Squared speed of a point at height z of a plate; turning about the normal is left out. *)
Definition plate_speed2 (q : vec) (z : R) : R :=
  (q 0%nat + z * q 4%nat) ^ 2 + (q 1%nat - z * q 3%nat) ^ 2 + q 2%nat ^ 2.
Definition square (m : mat R) (n : nat) : Prop := rows m = n /\ cols m = n.

(** ** Dependence on a parameter *)
Definition sec_path := sname -> R -> R.
Definition sec_at (P : sec_path) (t : R) : sec := fun x => P x t.
Definition sec_deriv (P : sec_path) (t : R) (d : sec) : Prop := forall x, is_derive (P x) t (d x).
(** A matrix whose entries vary. *)
Definition mat_path := nat -> nat -> R -> R.
Definition mat_at (r c : nat) (F : mat_path) (t : R) : mat R := mkMat r c (fun i j => F i j t).
Definition mat_path_deriv (F : mat_path) (t : R) (d : mat R) (r c : nat) : Prop :=
  rows d = r /\ cols d = c /\ forall i j, (i < r)%nat -> (j < c)%nat -> is_derive (F i j) t (ent d i j).
Definition scalar_deriv (f : R -> outcome R) (t : R) (d : outcome R) : Prop :=
  exists x g, d = Ok x /\ locally t (fun s => f s = Ok (g s)) /\ is_derive g t x.

(** ** Layers *)
Definition total (l : list R) : R := fold_right Rplus 0 l.
(** Height of the interface below layer i of a stack whose reference is at [base]: -1 the bottom, 0 the middle, 1 the top. *)
Definition interface (base : R) (hs : list R) (i : nat) : R := - ((1 + base) / 2 * total hs) + total (firstn i hs).

(** ** Bending models: the one that was set; by default Bernoulli (DKT) for the simplest element and Timoshenko (Mindlin) for
    the others.  Plate models are refused for bars. *)
Definition wanted1 (set : bending) (two_node first : bool) : option bending :=
  match set with
  | DKT | MINDLIN => None
  | DEFAULT_BENDING => Some (if (two_node && first)%bool then BERNOULLI else TIMOSHENKO)
  | b => Some b
  end.
Definition wanted2 (set : bending) (tri3 first : bool) : bending :=
  match set with DEFAULT_BENDING => if (tri3 && first)%bool then DKT else MINDLIN | b => b end.
