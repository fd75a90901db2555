(** Specification vocabulary for condensation and patches. *)
From Coq Require Import List Arith Reals Sorted Permutation.
From Verif Require Import Base Cond_Model.
Import ListNotations.

(** Dof [k] of an element in variable-major order belongs to node [k mod n_nodes]. *)
Definition node_of_dof (e : elem) (k : nat) : nat := k mod e_nodes e.

(** The void block of the Jacobian is invertible: some matrix inverts it on the right. *)
Definition void_invertible (vs : list nat) (jac : mat R) : Prop :=
  exists y : nat -> nat -> R, forall i j, i < length vs -> j < length vs ->
    sum (length vs) (fun k => ent jac (nth i vs 0%nat) (nth k vs 0%nat) * y k j)%R =
    (if i =? j then 1 else 0)%R.

(** Contract of FullPivLU::solve on the void block: if the block is invertible the result solves the
    system, for every right-hand side. *)
Definition lu_solves (lu : lu_solver) (vs : list nat) (jac : mat R) : Prop :=
  void_invertible vs jac ->
  forall a b, rows a = length vs -> cols a = length vs ->
    (forall i j, i < length vs -> j < length vs -> ent a i j = ent jac (nth i vs 0) (nth j vs 0)) ->
    forall i, i < length vs -> sum (length vs) (fun k => ent a i k * lu a b k)%R = b i.

(** A run of material around a closed sequence of [n] values: [l] consecutive non-negative
    positions starting at [s], with a negative position before and after. *)
Definition is_run (n : nat) (v : nat -> R) (s l : nat) : Prop :=
  s < n /\ 1 <= l < n /\ (forall k, k < l -> (0 <= v ((s + k) mod n))%R) /\
  (v ((s + n - 1) mod n) < 0)%R /\ (v ((s + l) mod n) < 0)%R.
(** [k] is the number of runs. *)
Definition run_count (n : nat) (v : nat -> R) (k : nat) : Prop :=
  exists L : list (nat * nat), NoDup L /\ length L = k /\
    forall s l, In (s, l) L <-> is_run n v s l.

(** squared distance of two points *)
Definition sqdist (p q : R * R * R) : R :=
  match p, q with (a, b, d), (x, y, z) => ((a - x) ^ 2 + (b - y) ^ 2 + (d - z) ^ 2)%R end.
(** [n] is the one of two nodes that is nearer to the node [c] *)
Definition nearer_node (pos : nat -> R * R * R) (c a b n : nat) : Prop :=
  (n = a \/ n = b) /\ (sqdist (pos n) (pos c) <= sqdist (pos a) (pos c))%R /\
  (sqdist (pos n) (pos c) <= sqdist (pos b) (pos c))%R.
(** direction in which the node [c] sees the centroid of an element *)
Definition direction (at2 : R -> R -> R) (cent : R * R) (p : R * R * R) : R :=
  match cent, p with (x, y), (px, py, _) => at2 (y - py)%R (x - px)%R end.
