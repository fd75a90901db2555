(** What the choice of participating elements and the temperature adjoint are expected to mean. *)
From Coq Require Import Reals.
From Coquelicot Require Import Coquelicot.
From Coq Require Import List Arith Bool.
From Verif Require Import Base Sens_Model Sens_Spec Tad_Model.
Import ListNotations.
Open Scope R_scope.

(** the element takes part: it or an element it was refined from is listed, or its subdomain is, or all do *)
Definition takes_part (c : chosen) (e : melem) : Prop :=
  c_all c = true \/ In (m_sub e) (c_subs c) \/ In (m_id e) (c_elems c) \/ exists a, In a (m_up e) /\ In a (c_elems c).
(** local vector of a global one *)
Definition at_elem (ds : list nat) (x : vec) : vec := fun k => x (nth k ds O).
(** work of a residual along an adjoint *)
Definition works (ds : list nat) (v x : vec) : R := sum (length ds) (fun k => x (nth k ds O) * v k).
