(** What the properties of the flow element talk about, independent of how the code computes it. *)
From Coq Require Import Reals.
From Coquelicot Require Import Coquelicot.
From Coq Require Import List Arith Bool.
From Verif Require Import Base Flui_Model Flui_Spec Cfe_Model.
Import ListNotations.
Open Scope R_scope.

(** A differentiable family of vectors of the element. *)
Definition moving (X : R -> evec) (t0 : R) (V : evec) : Prop := forall v a, is_derive (fun t => X t v a : R) t0 (V v a).
(** The shape functions sum up to one; so their derivatives sum up to zero. *)
Definition unity (nphi : nat) (q : fpt) : Prop := sum nphi (fq_N q) = 1.
Definition flat (d nphi : nat) (q : fpt) : Prop := forall c, (c < d)%nat -> sum nphi (fq_dN q c) = 0.
(** The same flow everywhere. *)
Definition uniform (U : vec) : evec := fun v _ => U v.
(** The Euler fluxes: mass, momentum, energy in direction c, and through a surface with normal n. *)
Definition vel (s : prim) (i : nat) : R := match i with 0%nat => p_u1 s | 1%nat => p_u2 s | _ => p_u3 s end.
Definition euler (d c : nat) (s : prim) (v : nat) : R :=
  if Nat.eqb v 0 then p_rho s * vel s c
  else if Nat.eqb v (d + 1) then (p_rho s * p_e s + p_p s) * vel s c
  else p_rho s * vel s c * vel s (v - 1) + (if Nat.eqb (v - 1) c then p_p s else 0).
Definition through (d : nat) (s : prim) (n : vec) (v : nat) : R := sum d (fun c => n c * euler d c s v).
Definition normal_speed (d : nat) (s : prim) (n : vec) : R := sum d (fun c => n c * vel s c).
(** Sum over the points of a list. *)
Fixpoint tot {X} (f : X -> R) (l : list X) : R := match l with [] => 0 | x :: t => f x + tot f t end.
(** The state at a point. *)
Definition state_at (d : nat) (cp cv : R) (nphi : nat) (x : evec) (q : fpt) : prim := prim_of d cp cv false (fe_U nphi q x).
(** A flow with positive density and temperature at every point of a list. *)
Definition physical (d : nat) (cp cv : R) (nphi : nat) (x : evec) (qs : list fpt) : Prop :=
  forall q, In q qs -> 0 < p_rho (state_at d cp cv nphi x q) /\ 0 < p_T (state_at d cp cv nphi x q).
