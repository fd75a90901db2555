(** Specification for C25-C31, C66. *)
From Coq Require Import Reals List Arith Bool Sorted.
From Verif Require Import Base Flut_Model.
Import ListNotations.
Open Scope R_scope.

(** damping, frequency and velocity of mode i in a solution *)
Definition g (i : nat) (s : fsol) : R := match nth_error (sroots s) i with Some r => r_re r | None => 0 end.
Definition w (i : nat) (s : fsol) : R := match nth_error (sroots s) i with Some r => r_im r | None => 0 end.
Definition vel (i : nat) (s : fsol) : R := match nth_error (sroots s) i with Some r => r_V r | None => 0 end.
(** a mode is retained when it is somewhere damped by at least the tolerance and somewhere has a
    non-negative frequency *)
Definition retained (sols : list fsol) (i : nat) : Prop :=
  (exists s, In s sols /\ tol <= Rabs (g i s)) /\ (exists s, In s sols /\ 0 <= w i s).
Definition consecutive (sols : list fsol) (a b : fsol) : Prop := exists l1 l2, sols = l1 ++ a :: b :: l2.
(** the two velocities are not both negligible *)
Definition fast (a b : fsol) : Prop := tol < Rabs (ref_val a) \/ tol < Rabs (ref_val b).

(** the entry that a sign change of mode i between a and b gives rise to; the solution with non-positive
    damping comes first *)
Definition crossing (i : nat) (a b : fsol) (k : R) (x : xover) : Prop :=
  (g i a <= 0 < g i b /\ k = vel i a /\ x = mkX a b i None) \/
  (g i b <= 0 < g i a /\ k = vel i b /\ x = mkX b a i None).

Definition lo (x : xover) : R := Rmin (ref_val (x_first x)) (ref_val (x_second x)).
Definition hi (x : xover) : R := Rmax (ref_val (x_first x)) (ref_val (x_second x)).

(** well-formed sweep: velocities increase, every solution has n roots evaluated at its velocity *)
Definition good_sol (n : nat) (s : fsol) : Prop :=
  length (sroots s) = n /\ Forall (fun r => r_V r = ref_val s) (sroots s).
Definition good_oracle (n : nat) (analyze : R -> option fsol -> fsol) : Prop :=
  forall V p, ref_val (analyze V p) = V /\ good_sol n (analyze V p).

(** any later use of the solver: further roots and critical roots, with any tolerances and iteration limits *)
Inductive calls (analyze : R -> option fsol -> fsol) : fstate -> fstate -> Prop :=
| calls_none s : calls analyze s s
| calls_next t it s b r s' s'' : 0 <= t -> find_next_root analyze t it s = Ok (b, r, s') ->
    calls analyze s' s'' -> calls analyze s s''
| calls_critical t it s b r s' s'' : 0 <= t -> find_critical_root analyze t it s = Ok (b, r, s') ->
    calls analyze s' s'' -> calls analyze s s''.

(** roots in the upper half plane; unstable ones at a positive velocity *)
Definition upper (r : froot) : Prop := 0 <= r_im r.
Definition unstable (t : R) (r : froot) : Prop := upper r /\ t <= r_re r /\ 0 < r_V r.
