(** Specification of the local coordinate systems and the transformation of unknowns. *)
From Coq Require Import Reals.
From Coquelicot Require Import Coquelicot.
From Coq Require Import List Arith Bool.
From Verif Require Import Base Geom_Model.
Import ListNotations.
Open Scope R_scope.

Definition kron (i j : nat) : R := if Nat.eqb i j then 1 else 0.
Definition inner (a b : point) : R := sum 3 (fun i => a i * b i).
Definition dist2 (a b : point) : R := inner (psub a b) (psub a b).
Definition column (t : nat -> nat -> R) (j : nat) : point := fun i => t i j.
Definition det3 (t : nat -> nat -> R) : R :=
  inner (column t 0) (cross (column t 1) (column t 2)).
(** axes of a right-handed orthonormal system *)
Definition rotation (t : nat -> nat -> R) : Prop :=
  (forall i j, (i < 3)%nat -> (j < 3)%nat -> inner (column t i) (column t j) = kron i j) /\
  (forall i j, (i < 3)%nat -> (j < 3)%nat -> inner (t i) (t j) = kron i j) /\ det3 t = 1.
Definition same3 (a b : point) : Prop := forall i, (i < 3)%nat -> a i = b i.
(** the vectors are not parallel *)
Definition independent (a b : point) : Prop := ~ same3 (cross a b) (fun _ => 0).

(** unknowns by variable and node; a vector of six variables on n nodes *)
Definition at_ (n : nat) (v : arr R) (c a : nat) : R := cell v (c * n + a)%nat.
(** u is a translation vector (s = 0) or rotation vector (s = 3) of a node *)
Definition node_vector (n : nat) (v : arr R) (s a : nat) : point := fun i => at_ n v (s + i) a.
Definition work (f u : arr R) : R := sum (len f) (fun k => cell f k * cell u k).
Definition apply (m : mat R) (u : arr R) : arr R := mkArr (rows m) (fun i => sum (cols m) (fun k => ent m i k * cell u k)).
Definition symmetric (m : mat R) : Prop := forall i j, (i < rows m)%nat -> (j < rows m)%nat -> ent m i j = ent m j i.
Definition semidefinite (m : mat R) : Prop := forall u, len u = rows m -> 0 <= work (apply m u) u.
Definition moved (u v : arr R) (s : R) : arr R := mkArr (len u) (fun i => cell u i + s * cell v i).
(** integral over the element *)
Definition integral (qs : list ipt) (g : ipt -> R) : R := fold_right (fun q s => ijxw q * g q + s) 0 qs.
Definition value (n : nat) (q : ipt) (u : arr R) (c : nat) : R := sum n (fun a => iphi q a * at_ n u c a).
