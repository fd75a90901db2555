(** What the coupling of meshes is compared with. *)
From Coq Require Import Reals List Arith.
From Verif Require Import Base Cpl_Model.
Import ListNotations.
Open Scope R_scope.

(** u satisfies a constraint row: u_k = sum of the entries times the values + right hand side *)
Definition holds (u : nat -> R) (c : constraint) : Prop :=
  let '(k, row, b) := c in u k = lsum (map (fun e => snd e * u (fst e)) row) + b.
(** the dofs that have a row *)
Definition tied (l : list constraint) : list nat := map (fun c => fst (fst c)) l.
(** every node has six dofs of its own: d n 0, ..., d n 5 (ux, uy, uz, tx, ty, tz) *)
Definition six (dofs : nat -> list nat) (d : nat -> nat -> nat) : Prop :=
  (forall n, dofs n = map (d n) (seq 0 6)) /\
  (forall n i n' i', (i < 6)%nat -> (i' < 6)%nat -> d n i = d n' i' -> n = n' /\ i = i').
(** (a x b) *)
Definition cross (a b : nat -> R) (i : nat) : R :=
  match i with
  | 0%nat => a 1%nat * b 2%nat - a 2%nat * b 1%nat
  | 1%nat => a 2%nat * b 0%nat - a 0%nat * b 2%nat
  | _ => a 0%nat * b 1%nat - a 1%nat * b 0%nat
  end.
(** weighted mean over the masters *)
Definition mean (masters : list nat) (w f : nat -> R) : R := lsum (map (fun m => w m * f m) masters).
(** nodal motion given by u: translations and rotations *)
Definition rigid (d : nat -> nat -> nat) (pos : nat -> nat -> R) (u a om : nat -> R) (n : nat) : Prop :=
  forall i, (i < 3)%nat -> u (d n i) = a i + cross om (pos n) i /\ u (d n (3 + i)%nat) = om i.
Definition rot_of (d : nat -> nat -> nat) (u : nat -> R) (n : nat) : nat -> R := fun i => u (d n (3 + i)%nat).
Definition rel (pos : nat -> nat -> R) (s m : nat) : nat -> R := fun i => pos s i - pos m i.
(** the sign with which the rotation of a master enters the rows *)
Definition sgn (i : nat) : R := match i with 1%nat => 1 | _ => -1 end.
(** a node on a side with boundary id b of one of the elements *)
Definition on_boundary (es : list element) (b n : nat) : Prop :=
  exists e s, In e es /\ In s (el_sides e) /\ In b (sd_ids s) /\ In n (sd_nodes s).
Definition in_subdomain (es : list element) (d n : nat) : Prop :=
  exists e, In e es /\ el_sub e = d /\ In n (el_nodes e).
(** displacement part of a mode *)
Definition moved (m p : nat -> R) : nat -> R := fun i => p i + m i.
Definition d3 (p q : nat -> R) : R := sqrt (sum 3 (fun i => (p i - q i) ^ 2)).
