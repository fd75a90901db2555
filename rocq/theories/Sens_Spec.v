(** What assembly and sensitivity analysis are expected to deliver, without reference to how the
    assembly loops are written. *)
From Coq Require Import Reals.
From Coquelicot Require Import Coquelicot.
From Coq Require Import List Arith Bool Permutation.
From Verif Require Import Base Sens_Model.
Import ListNotations.
Open Scope R_scope.

(** all elements of the mesh, whichever processor holds them *)
Definition elements (S : sys) : list elem := flat_map local (ranks S).
Definition active (S : sys) (e : elem) : bool := negb (diag S (subdom e)).
Definition total {A} (f : A -> R) (l : list A) : R := lsum (map f l).

(** The component of a local vector in the direction of the unconstrained dof [i]: hanging dofs are
    combinations of the dofs that constrain them. *)
Definition part (S : sys) (ds : list nat) (v : vec) (i : nat) : R :=
  sum (length ds) (fun k => coef S (dof ds k) i * v k).

(** external forces of the point loads in the direction of dof [i] *)
Definition forces (S : sys) (f : pload -> nat -> vec) (i : nat) : R :=
  total (fun l => total (fun nd => part S (snd nd) (f l (fst nd)) i) (p_nodes l)) (loads S).

(** residual: internal forces minus point loads, on the unconstrained dofs *)
Definition residual_of (S : sys) (th : params) (X : vec) (i : nat) : R :=
  total (fun e => part S (edofs e) (e_res e th (gather (edofs e) X)) i) (filter (active S) (elements S))
  - forces S (fun l => p_load l th) i.
(** the element's partial derivative with respect to parameter f *)
Definition dres_of (S : sys) (th : params) (f : nat) (e : elem) (x : vec) : vec :=
  fun k => e_dres e th f x k + (if is_topology S f then e_topo e th f x k else 0).
Definition dresidual_of (S : sys) (th : params) (f : nat) (X : vec) (i : nat) : R :=
  total (fun e => part S (edofs e) (dres_of S th f e (gather (edofs e) X)) i)
        (filter (active S) (elements S))
  - forces S (fun l => p_dload l th f) i.
(** the output: sum over the elements it is evaluated for *)
Definition counted (S : sys) (e : elem) : bool := active S e && q_here e.
Definition output_of (S : sys) (th : params) (X : vec) : R :=
  total (fun e => e_q e th (gather (edofs e) X)) (filter (counted S) (elements S)).

(** Each dof is owned by exactly one processor. *)
Definition owns (d : nat) (rk : rank) : bool := (first_dof rk <=? d)%nat && (d <? end_dof rk)%nat.
Definition owned_once (S : sys) : Prop :=
  forall d, (d < n S)%nat -> length (filter (owns d) (ranks S)) = 1%nat.
(** The dof numbers of elements and loads exist; a node with a point load carries one dof per variable;
    constraint rows are resolved, i.e. refer to unconstrained dofs. *)
Definition well_formed (S : sys) : Prop :=
  (forall e, In e (elements S) -> forall d, In d (edofs e) -> (d < n S)%nat) /\
  (forall l nd ds, In l (loads S) -> In (nd, ds) (p_nodes l) ->
     length ds = n_vars S /\ forall d, In d ds -> (d < n S)%nat) /\
  (forall d r j c, row S d = Some r -> In (j, c) r -> (j < n S)%nat /\ row S j = None).

(** The same discretisation distributed in another way. *)
Definition redistributed (S S' : sys) : Prop :=
  n S' = n S /\ n_vars S' = n_vars S /\ loads S' = loads S /\ diag S' = diag S /\ row S' = row S /\
  is_topology S' = is_topology S /\ param_dep S' = param_dep S /\
  Permutation (elements S) (elements S').

(** x solves A x = b; x solves A^T x = b *)
Definition solves (m : nat) (A : matrix) (b x : vec) : Prop :=
  forall i, (i < m)%nat -> sum m (fun j => A i j * x j) = b i.
Definition solves_tr (m : nat) (A : matrix) (b x : vec) : Prop :=
  forall j, (j < m)%nat -> sum m (fun i => A i j * x i) = b j.

(** The parameter values with parameter [f] set to [t]. *)
Definition at_ (th : params) (f : nat) (t : R) : params := fun g => if (g =? f)%nat then t else th g.

(** Contracts of the element routines at parameter values [th] and local solution [x]:
    the Jacobian and the sensitivity are the derivatives of the residual, along every differentiable path *)
Definition element_differentiable (S : sys) (th : params) (f : nat) (e : elem) (x : vec) : Prop :=
  forall (p : R -> vec) (dp : vec),
    (forall k, (k < length (edofs e))%nat -> p (th f) k = x k) ->
    (forall k, (k < length (edofs e))%nat -> is_derive (fun t => p t k) (th f) (dp k)) ->
    forall k, (k < length (edofs e))%nat ->
      is_derive (fun t => e_res e (at_ th f t) (p t) k) (th f)
        (sum (length (edofs e)) (fun l => e_jac e th x k l * dp l) + dres_of S th f e x k).
(** ... the same for the element's share of the output *)
Definition output_differentiable (th : params) (f : nat) (e : elem) (x : vec) : Prop :=
  forall (p : R -> vec) (dp : vec),
    (forall k, (k < length (edofs e))%nat -> p (th f) k = x k) ->
    (forall k, (k < length (edofs e))%nat -> is_derive (fun t => p t k) (th f) (dp k)) ->
    is_derive (fun t => e_q e (at_ th f t) (p t)) (th f)
      (e_qp e th f x zero + sum (length (edofs e)) (fun k => e_qx e th x k * dp k)).
(** ... evaluate_sensitivity is the partial derivative plus the derivative along the given sensitivity *)
Definition output_consistent (th : params) (f : nat) (e : elem) (x : vec) : Prop :=
  forall dx, e_qp e th f x dx
             = e_qp e th f x zero + sum (length (edofs e)) (fun k => e_qx e th x k * dx k).
Definition load_differentiable (th : params) (f : nat) (l : pload) : Prop :=
  forall nd ds k, In (nd, ds) (p_nodes l) -> (k < length ds)%nat ->
    is_derive (fun t => p_load l (at_ th f t) nd k) (th f) (p_dload l th f nd k).

(** A parameter-dependence object is sound for [f] at [X] if the elements it excludes have neither a
    residual sensitivity nor a partial output sensitivity. *)
Definition dependence_sound (S : sys) (th : params) (f : nat) (X : vec) : Prop :=
  forall d, param_dep S = Some d -> forall e, In e (elements S) -> depends d e f = false ->
    (forall k, (k < length (edofs e))%nat -> dres_of S th f e (gather (edofs e) X) k = 0) /\
    e_qp e th f (gather (edofs e) X) zero = 0.
Definition no_override (S : sys) : Prop := forall d, param_dep S = Some d -> override d = false.

(** A curve of equilibria through X: for every parameter value near [th f] the residual vanishes on the
    unconstrained dofs and the constrained dofs follow the others with a fixed offset [h]. *)
Definition equilibrium_path (S : sys) (th : params) (f : nat) (h : vec) (U : R -> vec) : Prop :=
  locally (th f) (fun t =>
    (forall i, (i < n S)%nat -> row S i = None -> residual_of S (at_ th f t) (U t) i = 0) /\
    (forall i r, (i < n S)%nat -> row S i = Some r ->
       U t i = total (fun e => snd e * U t (fst e)) r + h i)).
(** The element's Jacobian is the derivative of its residual with the parameters held fixed. *)
Definition jacobian_consistent (th : params) (e : elem) (x : vec) : Prop :=
  forall (p : R -> vec) (dp : vec),
    (forall k, (k < length (edofs e))%nat -> p 0 k = x k) ->
    (forall k, (k < length (edofs e))%nat -> is_derive (fun t => p t k) 0 (dp k)) ->
    forall k, (k < length (edofs e))%nat ->
      is_derive (fun t => e_res e th (p t) k) 0
        (sum (length (edofs e)) (fun l => e_jac e th x k l * dp l)).
(** A direction that respects the (homogeneous) constraints. *)
Definition admissible (S : sys) (y : vec) : Prop :=
  forall i r, (i < n S)%nat -> row S i = Some r -> y i = total (fun e => snd e * y (fst e)) r.
(** What the diagonal of the blanked-out elements adds in direction [y]. *)
Definition blanked (S : sys) (y : vec) (i : nat) : R :=
  / 10 ^ 24 * total (fun e => part S (edofs e) (gather (edofs e) y) i)
                (filter (fun e => diag S (subdom e)) (elements S)).
(** Everything that is assumed of the discretised problem near X when its total derivative is taken:
    a differentiable curve of equilibria through X, and element, load and output routines that are each
    other's derivatives there; no element is blanked out. *)
Record smooth_problem (S : sys) (th : params) (f : nat) (X h : vec) (U : R -> vec) (dU : vec) : Prop := {
  sp_at : forall d, (d < n S)%nat -> U (th f) d = X d;
  sp_der : forall d, (d < n S)%nat -> is_derive (fun t => U t d) (th f) (dU d);
  sp_eq : equilibrium_path S th f h U;
  sp_el : forall e, In e (elements S) -> element_differentiable S th f e (gather (edofs e) X);
  sp_ld : forall l, In l (loads S) -> load_differentiable th f l;
  sp_out : forall e, In e (elements S) -> output_differentiable th f e (gather (edofs e) X);
  sp_act : forall e, In e (elements S) -> active S e = true }.
(** The same problem without a parameter-dependence object. *)
Definition without (S : sys) : sys :=
  mkSys (n S) (n_vars S) (ranks S) (loads S) (diag S) (row S) (is_topology S) None.
