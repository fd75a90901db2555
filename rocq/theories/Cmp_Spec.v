(** What the compliance is compared with. *)
From Coq Require Import Reals.
From Coquelicot Require Import Coquelicot.
From Coq Require Import List Arith.
From Verif Require Import Base Sens_Model Sens_Spec Cmp_Model.
Import ListNotations.
Open Scope R_scope.

(** the elements of the system are the given structural elements, in any distribution over processes *)
Definition made_of (S : sys) (es : list selem) : Prop := elements S = map as_elem es.
(** loads of an element: minus the external residuals *)
Definition load_of (e : selem) (th : params) (x : vec) : vec := fun k => - (s_side e th x k + s_vol e th x k).
(** work of the loads of all elements, of the internal forces, and of the point loads, on displacements X *)
Definition work_of_loads (th : params) (es : list selem) (X : vec) : R :=
  total (fun e => dot (length (s_dofs e)) (load_of e th (gather (s_dofs e) X)) (gather (s_dofs e) X)) es.
Definition work_of_forces (th : params) (es : list selem) (X : vec) : R :=
  total (fun e => dot (length (s_dofs e)) (s_int e th (gather (s_dofs e) X)) (gather (s_dofs e) X)) es.
Definition work_of_points (S : sys) (th : params) (X : vec) : R :=
  total (fun l => total (fun nd => dot (length (snd nd)) (p_load l th (fst nd)) (gather (snd nd) X)) (p_nodes l)) (loads S).
(** loads that do not depend on the displacements; their sensitivity is their derivative *)
Definition dead (e : selem) : Prop :=
  forall th x y k, (k < length (s_dofs e))%nat -> s_side e th x k + s_vol e th x k = s_side e th y k + s_vol e th y k.
Definition load_sensitivity_exact (e : selem) (th : params) (f : nat) (x : vec) : Prop :=
  forall k, (k < length (s_dofs e))%nat ->
  is_derive (fun t : R => s_side e (at_ th f t) x k + s_vol e (at_ th f t) x k) (th f) (s_dside e th f x k + s_dvol e th f x k).
(** loads that depend on the displacements with tangent [T] *)
Definition load_tangent (e : selem) (th : params) (x : vec) (T : matrix) : Prop :=
  forall (p : R -> vec) (dp : vec),
    (forall k, (k < length (s_dofs e))%nat -> p 0 k = x k) ->
    (forall k, (k < length (s_dofs e))%nat -> is_derive (fun t : R => p t k) 0 (dp k)) ->
    forall k, (k < length (s_dofs e))%nat ->
      is_derive (fun t : R => s_side e th (p t) k + s_vol e th (p t) k) 0 (sum (length (s_dofs e)) (fun l => T k l * dp l)).
