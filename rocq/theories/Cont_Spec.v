(** Specification for C18-C21. *)
From Coq Require Import Reals List Arith Bool.
From Verif Require Import Base Cont_Model.
Import ListNotations.
Open Scope R_scope.

(** [m] Newton iterations at fixed arc length, from (x, d) *)
Fixpoint iterate {X D : Type} (nr : R -> X -> D -> X * D) (norm : R -> X -> D -> R * D)
    (arc : R) (m : nat) (x : X) (d : D) : X * D :=
  match m with
  | O => (x, d)
  | S k => let '(x, d) := iterate nr norm arc k x d in
           let '(x, d) := nr arc x d in let '(_, d) := norm arc x d in (x, d)
  end.
(** residual norm after the m-th iteration (m >= 1) *)
Definition norm_after {X D : Type} (nr : R -> X -> D -> X * D) (norm : R -> X -> D -> R * D)
    (arc : R) (m : nat) (x : X) (d : D) : R :=
  let '(x, d) := iterate nr norm arc (m - 1) x d in
  let '(x, d) := nr arc x d in fst (norm arc x d).
(** arc length of the k-th trial *)
Fixpoint trial_arc (min_step arc : R) (k : nat) : R :=
  match k with O => arc | S j => Rmax min_step (trial_arc min_step arc j / 2) end.

(** the bordered Newton system *)
Definition solves_residual (n : nat) (J : matrix) (f dfdp dX : vec) (dp : R) : Prop :=
  forall i, (i < n)%nat -> sum n (fun j => J i j * dX j) + dfdp i * dp = - f i.
Definition solves_constraint (n : nat) (dgdX : vec) (dgdp g : R) (dX : vec) (dp : R) : Prop :=
  sum n (fun j => dgdX j * dX j) + dgdp * dp = - g.
(** a linear solver that is exact for the matrix J, and J non-singular *)
Definition exact_solver (n : nat) (slv : matrix -> vec -> vec) (J : matrix) : Prop :=
  (forall b i, (i < n)%nat -> sum n (fun j => J i j * slv J b j) = b i) /\
  (forall u, (forall i, (i < n)%nat -> sum n (fun j => J i j * u j) = 0) -> forall j, (j < n)%nat -> u j = 0).
Definition exact_big (n : nat) (big : matrix -> vec -> vec) (B : matrix) : Prop :=
  forall b i, (i < S n)%nat -> sum (S n) (fun j => B i j * big B b j) = b i.

(** a continuation run: [k] solves, each starting from the state, direction and arc length the previous
    one left *)
Fixpoint continue_run {X D : Type} (c : cparams) (nr : R -> X -> D -> X * D) (norm : R -> X -> D -> R * D)
    (fuel k : nat) (arc : R) (x : X) (d : D) : outcome (R * X * D) :=
  match k with
  | O => Ok (arc, x, d)
  | S j => bind (csolve c nr norm fuel arc x d) (fun r => let '(_, a, x', d') := r in
             continue_run c nr norm fuel j a x' d')
  end.
(** scaled displacement from the start of the step *)
Definition scaled_step (xs : R) (X0 X : vec) : vec := fun i => xs * (X i - X0 i).
