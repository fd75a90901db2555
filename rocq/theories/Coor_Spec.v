(** Specification of the orientation of materials, independent of how the matrices are computed. *)
From Coquelicot Require Import Coquelicot.
From Coq Require Import List Arith Bool Reals.
From Verif Require Import Base Mat_Model Mat_Spec.
Open Scope R_scope.

(** The tensors written as six components in the order 11, 22, 33, 12, 23, 31; strains have engineering shears. *)
Definition tensor := nat -> nat -> R.
Definition comp (i j : nat) : nat :=
  match i, j with
  | 0, 0 => 0 | 1, 1 => 1 | 2, 2 => 2
  | 0, 1 | 1, 0 => 3 | 1, 2 | 2, 1 => 4 | _, _ => 5
  end%nat.
Definition stress_tensor (s : vec) : tensor := fun i j => s (comp i j).
Definition strain_tensor (e : vec) : tensor := fun i j => if Nat.eqb i j then e (comp i j) else e (comp i j) / 2.

(** The columns of [A] are three mutually perpendicular unit vectors, the axes of the material, in global components. *)
Definition orthonormal (A : mat R) : Prop :=
  rows A = 3%nat /\ cols A = 3%nat /\
  forall i j, (i < 3)%nat -> (j < 3)%nat -> sum 3 (fun k => ent A k i * ent A k j) = if Nat.eqb i j then 1 else 0.
(** Components along these axes, of a tensor and of a vector. *)
Definition along_axes (A : mat R) (X : tensor) : tensor :=
  fun i j => sum 3 (fun k => sum 3 (fun l => ent A k i * ent A l j * X k l)).
Definition local_strain (A : mat R) (e e' : vec) : Prop :=
  forall i j, (i < 3)%nat -> (j < 3)%nat -> strain_tensor e' i j = along_axes A (strain_tensor e) i j.
Definition local_stress (A : mat R) (s s' : vec) : Prop :=
  forall i j, (i < 3)%nat -> (j < 3)%nat -> stress_tensor s' i j = along_axes A (stress_tensor s) i j.
Definition local_vector (A : mat R) (x x' : vec) : Prop :=
  forall i, (i < 3)%nat -> x' i = sum 3 (fun k => ent A k i * x k).

(** [G] is the matrix, in global axes, of the elastic law whose matrix along the material axes is [C]. *)
Definition turned_stiffness (A C G : mat R) : Prop :=
  forall e s e' s', local_strain A e e' -> local_stress A s s' -> (applies G 6 e s <-> applies C 6 e' s').
(** [G] is the matrix, in global axes, of the conduction law whose matrix along the material axes is [K]. *)
Definition turned_conductance (A K G : mat R) : Prop :=
  forall g q g' q', local_vector A g g' -> local_vector A q q' -> (applies G 3 g q <-> applies K 3 g' q').

(** Stress of a heated body from the card's two matrices: stiffness times strain, less the thermal matrix times the rise. *)
Definition card_stress (G b : mat R) (T : R) (e s : vec) : Prop :=
  forall i, (i < 6)%nat -> s i = sum 6 (fun j => ent G i j * e j) - ent b i 0%nat * T.
(** Conduction along the three axes of the material: the flux component is the conductivity times the gradient component. *)
Definition fourier_ort (v : props) (g q : vec) : Prop :=
  q 0%nat = v k11_ * g 0%nat /\ q 1%nat = v k22_ * g 1%nat /\ q 2%nat = v k33_ * g 2%nat.
(** An orientation that varies with a parameter and its derivative there. *)
Definition varies (A : R -> outcome (mat R)) (t : R) (d : outcome (mat R)) : Prop :=
  mat_deriv A t d /\ exists m, d = Ok m /\ rows m = 3%nat /\ cols m = 3%nat.
