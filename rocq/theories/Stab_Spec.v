(** Specification for C22, C23, C64, C65. *)
From Coq Require Import Reals List Arith Bool.
From Verif Require Import Base Stab_Model.
Open Scope R_scope.

Section Spec.
  Variable c : sparams.
  Variables mass jac : nat -> R -> matrix.
  Variable force : nat -> R -> vec.
  (** the calls starts at solution number [i0] and time [t] ; its j-th sub-step (j = 0, 1, ...) uses number
      i0 + 1 + j and time t + (j + 1) dt *)
  Variables (i0 : nat) (t : R).
  Definition at_step {A} (f : nat -> R -> A) (j : nat) : A := f (S (i0 + j))%nat (t + INR (S j) * p_dt c).
  (** arithmetic mean over the first k sub-steps, and dt times the sum *)
  Definition mean_mass (k : nat) : matrix := fun a b => sum k (fun j => at_step mass j a b) / INR k.
  Definition int_jac (k : nat) : matrix := fun a b => p_dt c * sum k (fun j => at_step jac j a b).
  Definition int_force (k : nat) : vec := fun a => - p_dt c * sum k (fun j => at_step force j a).
  (** the linear system of the k-th trial *)
  Definition lhs (k : nat) : matrix := fun a b => mean_mass k a b + p_beta c * int_jac k a b.
  Definition rhs (x0 : vec) (k : nat) : vec :=
    fun a => sum (p_n c) (fun b => mean_mass k a b * x0 b) + int_force k a.
End Spec.
