(** Specification for C190-C195. *)
From Coq Require Import Reals List Arith Bool Sorted.
From Verif Require Import Base Flut_Model Ufl_Model.
Import ListNotations.
Open Scope R_scope.

(** harmonic motion q exp(i om t) at the flight speed V of a structure with mass m, stiffness k and structural damping g
    under the aerodynamic matrix a (a force on the left of the equation):
      -om^2 m q + (1 + i g) k q + rho/2 V^2 a q = 0 *)
Definition harmonic (n : nat) (rho : R) (m k : rmat) (a : cmat) (om V g : R) (q : cvec) : Prop :=
  forall i, (i < n)%nat ->
    cadd (cadd (cscal (- (om ^ 2)) (csum n (fun j => cscal (m i j) (q j))))
               (cmul (1, g) (csum n (fun j => cscal (k i j) (q j)))))
         (cscal (rho / 2 * V ^ 2) (csum n (fun j => cmul (a i j) (q j)))) = (0, 0).
(** generalised eigenvector for the quotient num / den *)
Definition eigenpair (n : nat) (A B : cmat) (num den : cpx) (q : cvec) : Prop :=
  forall i, (i < n)%nat -> cmul den (cmv n A q i) = cmul num (cmv n B q i).

(** damping, velocity and validity of mode i in a solution *)
Definition kg (i : nat) (s : ksol) : R := match nth_error (k_roots s) i with Some r => k_g r | None => 0 end.
Definition kvel (i : nat) (s : ksol) : R := match nth_error (k_roots s) i with Some r => k_V r | None => 0 end.
Definition physical (i : nat) (s : ksol) : Prop := exists r, nth_error (k_roots s) i = Some r /\ k_bad r = false.
(** somewhere damped or undamped by the tolerance *)
Definition kretained (sols : list ksol) (i : nat) : Prop := exists s, In s sols /\ tol <= Rabs (kg i s).
(** neighbours in the sweep *)
Definition neighbours (sols : list ksol) (a b : ksol) : Prop := exists l1 l2, sols = l1 ++ a :: b :: l2.
(** a pair that is examined: both roots physical, not both frequencies negligible, both dampings below 3/4 *)
Definition examined (i : nat) (a b : ksol) : Prop :=
  physical i a /\ physical i b /\ (tol < Rabs (k_ref a) \/ tol < Rabs (k_ref b)) /\
  Rabs (kg i a) < 3 / 4 /\ Rabs (kg i b) < 3 / 4.
(** the entry of a sign change; the solution with non-positive damping comes first and gives the key *)
Definition kcrossing (i : nat) (a b : ksol) (k : R) (x : kxo) : Prop :=
  (kg i a <= 0 < kg i b /\ k = kvel i a /\ x = mkKx a b i None) \/
  (kg i b <= 0 < kg i a /\ k = kvel i b /\ x = mkKx b a i None).
Definition in_order (xs : kxmap) : Prop := StronglySorted (fun a b : R * kxo => fst a <= fst b) xs.

(** an eigen-solver that returns N roots, labelled with the frequency they were computed at *)
Definition ug_oracle (N : nat) (analyze : R -> option ksol -> ksol) : Prop :=
  forall kr p, k_ref (analyze kr p) = kr /\ length (k_roots (analyze kr p)) = N /\
    Forall (fun r => k_kr r = kr) (k_roots (analyze kr p)).
(** any later use of the solver *)
Inductive ug_calls (analyze : R -> option ksol -> ksol) : kstate -> kstate -> Prop :=
| ug_calls_none s : ug_calls analyze s s
| ug_calls_next t it s b r s' s'' : ug_next analyze t it s = Ok (b, r, s') ->
    ug_calls analyze s' s'' -> ug_calls analyze s s''
| ug_calls_critical t it s b r s' s'' : ug_critical analyze t it s = Ok (b, r, s') ->
    ug_calls analyze s' s'' -> ug_calls analyze s s''.

(** the PK eigenproblem in second-order form: p^2 m q + k q + rho/2 v^2 a q = 0 *)
Definition pk_equation (n : nat) (rho v : R) (m k : rmat) (a : cmat) (p : cpx) (q : cvec) : Prop :=
  forall i, (i < n)%nat ->
    cadd (cadd (cmul (cmul p p) (csum n (fun j => cscal (m i j) (q j)))) (csum n (fun j => cscal (k i j) (q j))))
         (cscal (rho / 2 * v ^ 2) (csum n (fun j => cmul (a i j) (q j)))) = (0, 0).
(** an analysis that labels its solution with the velocity and its roots with the reduced frequency *)
Definition pk_oracle (N : nat) (analyze : R -> R -> option ksol -> ksol) : Prop :=
  forall k v p, k_ref (analyze k v p) = v /\ length (k_roots (analyze k v p)) = N /\
    Forall (fun r => k_kr r = k /\ k_V r = v) (k_roots (analyze k v p)).
(** an arbitrary history of insertions: reduced frequency of the analysis and its solution *)
Fixpoint pk_history (h : list (R * ksol)) (m : kmap) : outcome kmap :=
  match h with
  | [] => Ok m
  | (k, s) :: h => m' <- pk_insert k s m ;; pk_history h m'
  end.
(** first solution of the history at a velocity *)
Fixpoint first_at (v : R) (h : list (R * ksol)) : option ksol :=
  match h with
  | [] => None
  | (_, s) :: h => if Req_EM_T (k_ref s) v then Some s else first_at v h
  end.
