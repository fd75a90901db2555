(** Specification of the material cards, independent of how they compute.
    Stress and strain are lists of components in the order 11, 22, 33, 12, 23, 31; shear strains are
    engineering strains. *)
From Coquelicot Require Import Coquelicot.
From Coq Require Import List Arith Bool Reals.
From Verif Require Import Base RBool Mat_Model.
Import ListNotations.
Open Scope R_scope.

Definition vec := nat -> R.

(** ** Hooke's law, written for the compliance *)
(** Isotropic: each normal strain is caused by its stress and, through Poisson's ratio, by the two others. *)
Definition hooke_iso (v : props) (e s : vec) : Prop :=
  let E := v E_ in let nu := v nu_ in
  e 0%nat = (s 0%nat - nu * (s 1%nat + s 2%nat)) / E /\
  e 1%nat = (s 1%nat - nu * (s 0%nat + s 2%nat)) / E /\
  e 2%nat = (s 2%nat - nu * (s 0%nat + s 1%nat)) / E /\
  e 3%nat = 2 * (1 + nu) / E * s 3%nat /\ e 4%nat = 2 * (1 + nu) / E * s 4%nat /\ e 5%nat = 2 * (1 + nu) / E * s 5%nat.
(** Orthotropic: nuij is minus the strain along j over the strain along i under a stress along i. *)
Definition hooke_ort (v : props) (e s : vec) : Prop :=
  e 0%nat = s 0%nat / v E11_ - v nu12_ / v E11_ * s 1%nat - v nu31_ / v E33_ * s 2%nat /\
  e 1%nat = - (v nu12_ / v E11_) * s 0%nat + s 1%nat / v E22_ - v nu23_ / v E22_ * s 2%nat /\
  e 2%nat = - (v nu31_ / v E33_) * s 0%nat - v nu23_ / v E22_ * s 1%nat + s 2%nat / v E33_ /\
  e 3%nat = s 3%nat / v G12_ /\ e 4%nat = s 4%nat / v G23_ /\ e 5%nat = s 5%nat / v G13_.

(** Values a material may have: the work of every stress is positive.  For the isotropic one this is the usual
    range of Poisson's ratio; for the orthotropic one the leading minors of the compliance are positive. *)
Definition admissible_iso (v : props) : Prop := 0 < v E_ /\ -1 < v nu_ < 1 / 2.
Definition admissible_ort (v : props) : Prop :=
  0 < v E11_ /\ 0 < v E22_ /\ 0 < v E33_ /\ 0 < v G12_ /\ 0 < v G13_ /\ 0 < v G23_ /\
  v nu12_ * v nu12_ * v E22_ < v E11_ /\
  v nu12_ * v nu12_ * (v E22_ / v E11_) + v nu23_ * v nu23_ * (v E33_ / v E22_) + v nu31_ * v nu31_ * (v E11_ / v E33_)
    + 2 * v nu12_ * v nu23_ * v nu31_ < 1.

(** ** Reading a matrix *)
Definition applies (m : mat R) (n : nat) (x y : vec) : Prop :=
  forall i, (i < n)%nat -> y i = sum n (fun j => ent m i j * x j).
(** The matrix of a linear elastic law: square, symmetric, and positive definite. *)
Definition elastic (m : mat R) (n : nat) : Prop :=
  rows m = n /\ cols m = n /\ (forall i j, (i < n)%nat -> (j < n)%nat -> ent m i j = ent m j i) /\
  (forall x, (exists i, (i < n)%nat /\ x i <> 0) -> 0 < sum n (fun i => sum n (fun j => x i * (ent m i j * x j)))).

(** The components a plane element works with (11, 22, 12) completed by the one along 33; the transverse shears are zero. *)
Definition plane (x : vec) (x33 : R) : vec :=
  fun i => match i with 0%nat => x 0%nat | 1%nat => x 1%nat | 2%nat => x33 | 3%nat => x 2%nat | _ => 0 end.
(** The components of a bar (11 and the shear of torsion). *)
Definition bar (x : vec) (x22 x33 : R) : vec :=
  fun i => match i with 0%nat => x 0%nat | 1%nat => x22 | 2%nat => x33 | 3%nat => x 1%nat | _ => 0 end.
(** The transverse shears 31 and 23. *)
Definition shears (x : vec) : vec := fun i => match i with 5%nat => x 0%nat | 4%nat => x 1%nat | _ => 0 end.

(** What the stiffness matrix of each kind has to be for a law [hooke]. *)
Definition law_of (k : fkind) (hooke : vec -> vec -> Prop) (e s : vec) : Prop :=
  match k with
  | KStiff3 => hooke e s
  | KStiff2 true => exists e33, hooke (plane e e33) (plane s 0)
  | KStiff2 false => exists s33, hooke (plane e 0) (plane s s33)
  | KStiff1 => exists e22 e33, hooke (bar e e22 e33) (bar s 0 0)
  | KShear => hooke (shears e) (shears s)
  | _ => False
  end.
Definition size_of (k : fkind) : nat := match k with KStiff3 => 6 | KStiff2 _ => 3 | _ => 2 end%nat.
Definition is_stiffness (k : fkind) : Prop :=
  match k with KStiff1 | KStiff2 _ | KStiff3 | KShear => True | _ => False end.

(** ** Derivatives *)
Definition entry (o : outcome (mat R)) (i j : nat) : R := match o with Ok m => ent m i j | Fault _ => 0 end.
(** [D] is the derivative at [t] of the matrix-valued function [M]. *)
Definition mat_deriv (M : R -> outcome (mat R)) (t : R) (D : outcome (mat R)) : Prop :=
  exists d, D = Ok d /\
    locally t (fun s => exists m, M s = Ok m /\ rows m = rows d /\ cols m = cols d) /\
    forall i j, (i < rows d)%nat -> (j < cols d)%nat -> is_derive (fun s => entry (M s) i j) t (ent d i j).
(** Property values that vary with a parameter, and their derivatives. *)
Definition path := pname -> R -> R.
Definition at_ (P : path) (s : R) : props := fun x => P x s.
Definition path_deriv (P : path) (t : R) (d : props) : Prop := forall x, is_derive (P x) t (d x).

(** ** Requests *)
(** What the interface promises for a request. *)
Definition kind_asked (r : request) : option fkind :=
  match r with
  | RStiffness 1 _ => Some KStiff1 | RStiffness 2 ps => Some (KStiff2 ps) | RStiffness 3 _ => Some KStiff3
  | RInertia 3 => Some KInertia3 | RShear => Some KShear
  | RExpansion d => if dim_ok d then Some (KExp d) else None
  | RCapacitance d => if dim_ok d then Some (KCap d) else None
  | RConductance d => if dim_ok d then Some (KCond d) else None
  | _ => None
  end.
(** The plane stress flags of the requests for the two dimensional stiffness. *)
Fixpoint flags (l : list request) : list bool :=
  match l with
  | [] => []
  | RStiffness 2 ps :: r => ps :: flags r
  | _ :: r => flags r
  end.
Definition all_same (l : list bool) : Prop := forall a b, In a l -> In b l -> a = b.
(** Objects handed out in a history. *)
Definition handed (t : list (request * outcome fobj)) (r : request) (f : fobj) : Prop := In (r, Ok f) t.
(** Two requests for the same quantity in the same dimension. *)
Definition same_quantity (r r' : request) : Prop :=
  match r, r' with
  | RStiffness d _, RStiffness d' _ => d = d'
  | _, _ => r = r'
  end.

(** ** Temperature *)
(** The strain of free expansion for a unit temperature rise. *)
Definition free_iso (v : props) : vec := fun i => match i with 0%nat | 1%nat | 2%nat => v alpha_ | _ => 0 end.
Definition free_ort (v : props) : vec :=
  fun i => match i with 0%nat => v alpha11_ | 1%nat => v alpha22_ | 2%nat => v alpha33_ | _ => 0 end.
(** The law of a heated body: the stress is due to the strain in excess of the free expansion. *)
Definition heated (hooke : vec -> vec -> Prop) (free : vec) (T : R) (e s : vec) : Prop := hooke (fun i => e i - free i * T) s.
Definition dim_of (k : fkind) : nat := match k with KStiff3 => 3 | KStiff2 _ => 2 | _ => 1 end%nat.
(** Stiffness times strain, less stiffness times expansion times the temperature rise. *)
Definition heated_matrices (C a : mat R) (n : nat) (T : R) (e s : vec) : Prop :=
  forall i, (i < n)%nat -> s i = sum n (fun j => ent C i j * e j) - sum n (fun j => ent C i j * ent a j 0) * T.
