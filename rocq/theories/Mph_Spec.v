(** What the assembly of a time step and the coupled solver are expected to deliver, without reference to their loops. *)
From Coq Require Import Reals.
From Coquelicot Require Import Coquelicot.
From Coq Require Import List Arith Bool Permutation.
From Verif Require Import Base Sens_Model Sens_Spec Mph_Model.
Import ListNotations.
Open Scope R_scope.

(** ** a time step *)
Definition step_elems (T : tsys) : list telem := concat (t_ranks T).
(** dof numbers exist, constraint rows refer to unconstrained dofs *)
Definition step_ok (T : tsys) : Prop :=
  (forall e d, In e (step_elems T) -> In d (tdofs e) -> (d < n (t_cons T))%nat) /\
  (forall d r j c, row (t_cons T) d = Some r -> In (j, c) r -> (j < n (t_cons T))%nat /\ row (t_cons T) j = None).
(** the state of an element at the new time when its unknowns are [x] and those of the last time are [prev] *)
Definition step_state (sc : scheme) (prev : quants) (ds : list nat) (x : vec) : quants :=
  fun k a => al sc k * x a + sum (S (order sc)) (fun m => hist_coef sc k m * prev m (dof ds a)).
(** the equations of the step for the unconstrained dof [i] *)
Definition step_residual (T : tsys) (th : params) (prev : quants) (X : vec) (i : nat) : R :=
  total (fun e => part (t_cons T) (tdofs e)
                    (t_res e th (step_state (t_scheme T) prev (tdofs e) (gather (tdofs e) X))) i) (step_elems T).
(** an element's Jacobian is the derivative of its residual with respect to the unknowns of the step *)
Definition step_jacobian (th : params) (sc : scheme) (prev : quants) (e : telem) (x : vec) : Prop :=
  forall (p : R -> vec) (dp : vec),
    (forall k, (k < length (tdofs e))%nat -> p 0 k = x k) ->
    (forall k, (k < length (tdofs e))%nat -> is_derive (fun t => p t k) 0 (dp k)) ->
    forall k, (k < length (tdofs e))%nat ->
      is_derive (fun t => t_res e th (step_state sc prev (tdofs e) (p t)) k) 0
        (sum (length (tdofs e)) (fun l => t_jac e th (step_state sc prev (tdofs e) x) k l * dp l)).
(** an element's product is its Jacobian times the perturbation *)
Definition step_product (th : params) (sc : scheme) (prev : quants) (e : telem) (x : vec) : Prop :=
  forall y k, (k < length (tdofs e))%nat ->
    t_lin e th (step_state sc prev (tdofs e) x) (fun m a => al sc m * y a) k
    = sum (length (tdofs e)) (fun l => t_jac e th (step_state sc prev (tdofs e) x) k l * y l).
(** an element's sensitivity is the derivative of its residual with respect to the parameter, the unknowns being held
    fixed and the last time following the parameter with the derivatives [dprev] *)
Definition step_sensitivity (th : params) (f : nat) (sc : scheme) (prev dprev : quants) (e : telem) (x : vec) : Prop :=
  forall pv : R -> quants,
    (forall m a, pv (th f) m a = prev m a) ->
    (forall m a, (m <= order sc)%nat -> (a < length (tdofs e))%nat ->
       is_derive (fun t => pv t m (dof (tdofs e) a)) (th f) (dprev m (dof (tdofs e) a))) ->
    forall k, (k < length (tdofs e))%nat ->
      is_derive (fun t => t_res e (at_ th f t) (step_state sc (pv t) (tdofs e) x) k) (th f)
        (t_dres e th f (step_state sc prev (tdofs e) x) k
         + t_prev e th (step_state sc prev (tdofs e) x) (fun m a => dprev m (dof (tdofs e) a)) k).

(** ** coupled disciplines *)
(** all disciplines are set *)
Definition complete (nd : nat) (s : mst) (D : nat -> disc) : Prop := forall i, (i < nd)%nat -> assem s i = Some (D i).
(** the constraint rows of a discipline refer to its own unconstrained dofs *)
Definition rows_ok (n : nat) (d : disc) : Prop :=
  forall k r c, d_row d k = Some (r, c) -> forall j w, In (j, w) r -> (j < n)%nat /\ d_row d j = None.
(** a solution, or a change of it, that respects the constraints *)
Definition satisfies (n : nat) (d : disc) (x : vec) : Prop :=
  forall k r c, (k < n)%nat -> d_row d k = Some (r, c) -> x k = total (fun e => snd e * x (fst e)) r + c.
Definition satisfies_hom (n : nat) (d : disc) (x : vec) : Prop :=
  forall k r c, (k < n)%nat -> d_row d k = Some (r, c) -> x k = total (fun e => snd e * x (fst e)) r.
(** the oracles read only the entries that exist *)
Definition local_disc (n : nat) (d : disc) : Prop :=
  (forall a x x', (forall k, (k < n)%nat -> x k = x' k) -> forall k, (k < n)%nat -> d_res d a x k = d_res d a x' k) /\
  (forall a x x', (forall k, (k < n)%nat -> x k = x' k) ->
     forall k l, (k < n)%nat -> (l < n)%nat -> d_jac d a x k l = d_jac d a x' k l) /\
  (forall a da x x' dx dx', (forall k, (k < n)%nat -> x k = x' k) -> (forall k, (k < n)%nat -> dx k = dx' k) ->
     forall k, (k < n)%nat -> d_lin d a da x dx k = d_lin d a da x' dx' k).
(** pointwise equality of the existing entries of vectors of all disciplines *)
Definition same (np nd : nat) (loc : nat -> nat -> nat) (X Y : nat -> vec) : Prop :=
  forall i k, (i < nd)%nat -> (k < n_of np loc i)%nat -> X i k = Y i k.
(** the constrained solutions *)
Definition constrained_sols (D : nat -> disc) (X : nat -> vec) : nat -> vec := fun i k =>
  match d_row (D i) k with None => X i k | Some (r, c) => total (fun e => snd e * X i (fst e)) r + c end.
Definition local_updater (np nd : nat) (loc : nat -> nat -> nat) (u : updater) : Prop :=
  (forall X Y i, same np nd loc X Y -> at_solution u X i = at_solution u Y i) /\
  (forall X Y dX dY i, same np nd loc X Y -> same np nd loc dX dY -> at_perturbed u X dX i = at_perturbed u Y dY i).
(** the equations of discipline [i] as functions of the solutions of all *)
Definition coupled (D : nat -> disc) (u : updater) (X : nat -> vec) (i k : nat) : R := d_res (D i) (at_solution u X i) (X i) k.
(** change of one discipline only *)
Definition only (j : nat) (v : vec) : nat -> vec := fun k => if (k =? j)%nat then v else zero.
(** Contracts at the solutions X: Jacobian and linearised product of a discipline are derivatives of its residual with
    respect to its solution and to the [M] data it reads ... *)
Definition disc_derivative (M n : nat) (d : disc) (a : aux) (x : vec) : Prop :=
  exists B : matrix,
    (forall (pa : R -> aux) (da : aux) (p : R -> vec) (dp : vec),
       pa 0 = a -> p 0 = x ->
       (forall m, (m < M)%nat -> is_derive (fun t => pa t m) 0 (da m)) ->
       (forall l, (l < n)%nat -> is_derive (fun t => p t l) 0 (dp l)) ->
       forall k, (k < n)%nat ->
         is_derive (fun t => d_res d (pa t) (p t) k) 0
           (sum n (fun l => d_jac d a x k l * dp l) + sum M (fun m => B k m * da m))) /\
    (forall da dx k, (k < n)%nat ->
       d_lin d a da x dx k = sum n (fun l => d_jac d a x k l * dx l) + sum M (fun m => B k m * da m)).
(** ... and the update object delivers its data and their derivative in the direction of each discipline *)
Definition update_derivative (M nd : nat) (u : updater) (X dX : nat -> vec) : Prop :=
  (forall Y i, fst (at_perturbed u X Y i) = at_solution u X i) /\
  (forall i m, (i < nd)%nat -> (m < M)%nat ->
     is_derive (fun t => at_solution u (fun j k => X j k + t * dX j k) i m) 0
       (sum nd (fun j => snd (at_perturbed u X (only j (dX j)) i) m))).
(** the data of a discipline do not depend on its own solution *)
Definition no_own_data (M nd : nat) (u : updater) (X : nat -> vec) : Prop :=
  forall i v m, (i < nd)%nat -> (m < M)%nat -> snd (at_perturbed u X (only i v) i) m = 0.
