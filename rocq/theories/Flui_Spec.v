(** Specification of the compressible flow kernel. *)
From Coq Require Import List Arith Bool Reals.
From Verif Require Import Base Flui_Model.
Import ListNotations.
Open Scope R_scope.

Definition valid_dim (d : nat) : Prop := d = 1%nat \/ d = 2%nat \/ d = 3%nat.
(** A differentiable family of states: [V] is the derivative of [U] at [s0]. *)
Definition follows (U : R -> vec) (s0 : R) (V : vec) : Prop := forall i, derivable_pt_lim (fun s => U s i) s0 (V i).
(** [M] is the Jacobian of the vector [F] of length [n] with respect to the conservative variables:
    along every differentiable family of states the derivative of F is M times that of the state. *)
Definition is_jacobian (n : nat) (F : vec -> vec) (U0 : vec) (M : mx) : Prop :=
  forall U s0 V, follows U s0 V -> (forall i, U s0 i = U0 i) ->
  forall i, (i < n)%nat -> derivable_pt_lim (fun s => F (U s) i) s0 (mvec n M V i).
Definition identity (n : nat) (M : mx) : Prop := forall i j, (i < n)%nat -> (j < n)%nat -> M i j = if Nat.eqb i j then 1 else 0.
Definition symmetric (n : nat) (M : mx) : Prop := forall i j, (i < n)%nat -> (j < n)%nat -> M i j = M j i.

(** The conservative variables of density, velocity and temperature. *)
Definition cons_of (d : nat) (cv : R) (q : vec) : vec :=
  let rho := q 0%nat in
  let u i := q (1 + i)%nat in
  fun i => if Nat.eqb i 0 then rho
           else if Nat.ltb i (d + 1) then rho * q i
           else rho * (cv * q (d + 1)%nat + (1/2) * sum d (fun j => u j * u j)).
(** The primitive variables: density, velocity, temperature. *)
Definition prim_vec (d : nat) (s : prim) : vec :=
  fun i => if Nat.eqb i (d + 1) then p_T s else match i with 0%nat => p_rho s | 1%nat => p_u1 s | 2%nat => p_u2 s | _ => p_u3 s end.
(** The entropy variables: 1/(cv T) (gamma cv T - T s - k, u, -1) with s = cv log(p / rho^gamma). *)
Definition entropy_vars (d : nat) (gm cv : R) (s : prim) : vec :=
  fun i => if Nat.eqb i 0 then gm - p_entropy s - p_k s / (cv * p_T s)
           else if Nat.eqb i (d + 1) then - (1 / (cv * p_T s))
           else (match i with 1%nat => p_u1 s | 2%nat => p_u2 s | _ => p_u3 s end) / (cv * p_T s).
(** The first d components of a vector have unit length. *)
Definition unit_normal (d : nat) (nv : vec) : Prop := sum d (fun i => nv i * nv i) = 1.
(** The matrix A with the directions weighted by the normal. *)
Definition along (d : nat) (A : nat -> mx) (nv : vec) : mx := fun i j => sum d (fun c => nv c * A c i j).
(** The flux through a moving wall with normal velocity [w] minus the velocity along the change [dn] of
    the normal: un (U + (0,..,p)) + (0, p n, 0). *)
Definition wall_flux (d : nat) (w : R) (nv dn : vec) (s : prim) : vec :=
  let u := fun i => match i with 0%nat => p_u1 s | 1%nat => p_u2 s | _ => p_u3 s end in
  let un := w - sum d (fun i => u i * dn i) in
  fun i => if Nat.eqb i 0 then un * p_rho s
           else if Nat.eqb i (d + 1) then un * (p_rho s * p_e s + p_p s)
           else un * (p_rho s * u (i - 1)%nat) + p_p s * nv (i - 1)%nat.
(** The viscous stress of a Newtonian fluid: [gu i j] is the derivative of velocity j in direction i. *)
Definition newton_stress (d : nat) (mu lambda : R) (gu : mx) : mx :=
  fun i j => mu * (gu i j + gu j i) + if Nat.eqb i j then lambda * sum d (fun k => gu k k) else 0.
