(** What a heat conduction element is expected to deliver: the terms of the weak form
      int grad(phi_a) . k grad(T) + int phi_a c dT/dt + int_boundary phi_a (outflow) - int phi_a source,
    integrals being sums over quadrature points. *)
From Coq Require Import Reals.
From Coquelicot Require Import Coquelicot.
From Coq Require Import List Arith Bool.
From Verif Require Import Base Sens_Model Sens_Spec Heat_Model.
Import ListNotations.
Open Scope R_scope.

(** interpolated temperature and its gradient *)
Definition T_at (n : nat) (T : vec) (q : qpt) : R := sum n (fun a => phi q a * T a).
Definition dT_at (n : nat) (T : vec) (q : qpt) (j : nat) : R := sum n (fun a => dphi q a j * T a).
Definition integral (qs : list qpt) (g : qpt -> R) : R := total (fun q => jxw q * g q) qs.
(** the state in which material functions are evaluated *)
Definition state_at (act : bool) (n : nat) (T : vec) (q : qpt) : option R := if act then Some (T_at n T q) else None.

(** grad(phi_a) . k grad(T) *)
Definition conduction (n dim : nat) (k : nat -> nat -> field) (act : bool) (t : R) (T : vec) (a : nat) (q : qpt) : R :=
  sum dim (fun i => sum dim (fun j =>
    dphi q a i * (val (k i j) t (state_at act n T q) (xyz q) * dT_at n T q j))).
(** rho c dT/dt phi_a; with a lumped capacity phi_a sum_b(phi_b) dT_a/dt *)
Definition storage (n : nat) (c : field) (act lumped : bool) (t : R) (T v : vec) (a : nat) (q : qpt) : R :=
  phi q a * (val c t (state_at act n T q) (xyz q) *
             (if lumped then sum n (phi q) * v a else T_at n v q)).

(** heat leaving through a load, per unit area (volume), at temperature T: positive outwards *)
Definition outflow (b : bc) (t : R) (T : R) (x : nat -> R) : R :=
  match b with
  | HeatFlux g => lval g t x
  | Convection h amb => lval h t x * (T - lval amb t x)
  | Radiation e amb z sb => lval sb t here * lval e t x *
      ((T + lval z t here) ^ 4 - (lval amb t here + lval z t here) ^ 4)
  | HeatSource g => - lval g t x
  | Dirichlet | OtherBC => 0
  end.
(** thickness by which loads on sides, and volume sources, are multiplied *)
Definition section_at (sec : option lfun) (t : R) (x : nat -> R) : R :=
  match sec with Some s => lval s t x | None => 1 end.
Definition is_source (b : bc) : bool := match b with HeatSource _ => true | _ => false end.
Definition side_ok (b : bc) : bool := match b with HeatSource _ | OtherBC => false | _ => true end.
Definition volume_ok (b : bc) : bool := match b with Dirichlet | OtherBC => false | _ => true end.
Definition supported (h : hload) : Prop :=
  (forall s b, In s (sides h) -> In b (snd s) -> side_ok b = true) /\
  (forall b, In b (volume h) -> volume_ok b = true).

Definition side_term (n : nat) (sec : option lfun) (t : R) (T : vec) (a : nat) (b : bc) (q : qpt) : R :=
  phi q a * (section_at sec t (xyz q) * outflow b t (T_at n T q) (xyz q)).
Definition volume_term (n : nat) (sec : option lfun) (t : R) (T : vec) (a : nat) (b : bc) (q : qpt) : R :=
  phi q a * ((if is_source b then section_at sec t (xyz q) else 1) * outflow b t (T_at n T q) (xyz q)).
(** the steady part of the residual *)
Definition weak_form (n dim : nat) (k : nat -> nat -> field) (sec : option lfun) (act : bool) (h : hload)
    (t : R) (T : vec) (a : nat) : R :=
  integral (points h) (conduction n dim k act t T a)
  + total (fun s => total (fun b => integral (fst s) (side_term n sec t T a b)) (snd s)) (sides h)
  + total (fun b => integral (points h) (volume_term n sec t T a b)) (volume h).

(** The [derivative] members report derivatives: of a material function along every differentiable history
    of the temperature while it depends on it; of a load function with respect to the parameter. *)
Definition smooth_field (g : field) (t0 : R) : Prop :=
  (forall x (T : R -> R) (dT : R), is_derive T t0 dT ->
     is_derive (fun t => val g t (Some (T t)) x) t0
       (d_temp g t0 (Some (T t0)) x * dT + d_par g t0 (Some (T t0)) x)) /\
  (forall x, is_derive (fun t => val g t None x) t0 (d_par g t0 None x)).
Definition smooth_load (g : lfun) (t0 : R) : Prop :=
  forall x, is_derive (fun t => lval g t x) t0 (l_par g t0 x).
Definition smooth_bc (b : bc) (t0 : R) : Prop :=
  match b with
  | HeatFlux g | HeatSource g => smooth_load g t0
  | Convection h amb => smooth_load h t0 /\ smooth_load amb t0
  | Radiation e amb z sb => smooth_load e t0 /\ smooth_load amb t0 /\ smooth_load z t0 /\ smooth_load sb t0
  | _ => True
  end.
Definition smooth_section (s : option lfun) (t0 : R) : Prop :=
  match s with Some g => smooth_load g t0 | None => True end.
(** the ambient and reference temperatures and the Stefan-Boltzmann constant do not change with the parameter *)
Definition radiation_fixed (b : bc) : Prop :=
  match b with
  | Radiation _ amb z sb => forall t t', lval amb t here = lval amb t' here /\
      lval z t here = lval z t' here /\ lval sb t here = lval sb t' here
  | _ => True
  end.
Definition all_loads (h : hload) (P : bc -> Prop) : Prop :=
  (forall s b, In s (sides h) -> In b (snd s) -> P b) /\ (forall b, In b (volume h) -> P b).

(** a differentiable history of the nodal values *)
Definition history (n : nat) (t0 : R) (T : R -> vec) (dT : vec) : Prop :=
  forall a, (a < n)%nat -> is_derive (fun t => T t a) t0 (dT a).

(** The shape functions sum to one, their gradients to zero. *)
Definition partition (n dim : nat) (q : qpt) : Prop :=
  sum n (phi q) = 1 /\ forall j, (j < dim)%nat -> sum n (fun a => dphi q a j) = 0.
