(** What the shock capturing coefficient of a flow is expected to be. *)
From Coq Require Import List Arith Bool Reals.
From Verif Require Import Base Flui_Model Flui_Spec Cfe_Model Cfe_Spec Shk_Model.
Import ListNotations.
Open Scope R_scope.

(** the flow satisfies the steady equations at a point: the rates of the fluxes along their directions add up to zero.  [rate c v] is
    how fast component v of the flux in direction c changes when the unknowns change as they do in that direction *)
Definition steady_at (d : nat) (cp cv : R) (nphi : nat) (x : evec) (q : fpt) : Prop :=
  exists rate : nat -> vec,
    (forall c v, (c < d)%nat -> (v < 2 + d)%nat ->
       derivable_pt_lim (fun t => match adv_flux d c (prim_of d cp cv false (fun i => fe_U nphi q x i + t * fe_dU nphi q x c i)) with Ok F => F v | _ => 0 end) 0 (rate c v)) /\
    (forall v, (v < 2 + d)%nat -> sum d (fun c => rate c v) = 0).
(** nothing changes around the point *)
Definition uniform_at (d nphi : nat) (x : evec) (q : fpt) : Prop := forall c v, (c < d)%nat -> (v < 2 + d)%nat -> fe_dU nphi q x c v = 0.

(** [g] is the size of the change [y] of the conservative variables at the state U: its product with the change of the entropy
    variables that goes with it *)
Definition gauge_of (d : nat) (cp cv : R) (U y : vec) (g : R) : Prop :=
  exists w : vec, (forall v, (v < 2 + d)%nat -> derivable_pt_lim (fun t => entropy_vars d (cp / cv) cv (prim_of d cp cv false (fun i => U i + t * y i)) v) 0 (w v)) /\
    g = sum (2 + d) (fun v => y v * w v).
(** the imbalance of the steady equations at a point: the sum of the rates of the fluxes *)
Definition imbalance (d : nat) (cp cv : R) (nphi : nat) (x : evec) (q : fpt) (r : vec) : Prop :=
  exists rate : nat -> vec,
    (forall c v, (c < d)%nat -> (v < 2 + d)%nat ->
       derivable_pt_lim (fun t => match adv_flux d c (prim_of d cp cv false (fun i => fe_U nphi q x i + t * fe_dU nphi q x c i)) with Ok F => F v | _ => 0 end) 0 (rate c v)) /\
    (forall v, r v = sum d (fun c => rate c v)).
