(** What the eigensolver interfaces are expected to deliver. *)
From Coq Require Import Reals.
From Coquelicot Require Import Coquelicot.
From Coq Require Import List Arith Bool.
From Verif Require Import Base Lap_Model.
Import ListNotations.
Open Scope R_scope.

(** b A v = a B v *)
Definition right_pair (n : nat) (A B : cmat) (a b : C) (v : cvec) : Prop :=
  forall i, (i < n)%nat -> Cmult b (csum n (fun j => Cmult (A i j) (v j))) = Cmult a (csum n (fun j => Cmult (B i j) (v j))).
(** b u^H A = a u^H B *)
Definition left_pair (n : nat) (A B : cmat) (a b : C) (u : cvec) : Prop :=
  forall j, (j < n)%nat -> Cmult b (csum n (fun i => Cmult (Cconj (u i)) (A i j))) = Cmult a (csum n (fun i => Cmult (Cconj (u i)) (B i j))).
(** Contract of dggev (its documentation): the output consists of real roots and of neighbouring conjugate pairs. *)
Inductive lapack_output (n : nat) (A B : nat -> nat -> R) (w : raw) : nat -> Prop :=
| lo_end : lapack_output n A B w n
| lo_real k : (k < n)%nat -> ri w k = 0 ->
    right_pair n (real_mat A) (real_mat B) (ra w k, 0) (RtoC (rb w k)) (fun i => (rr w i k, 0)) ->
    left_pair n (real_mat A) (real_mat B) (ra w k, 0) (RtoC (rb w k)) (fun i => (rl w i k, 0)) ->
    lapack_output n A B w (S k) -> lapack_output n A B w k
| lo_pair k : (S k < n)%nat -> ri w k <> 0 ->
    right_pair n (real_mat A) (real_mat B) (ra w k, ri w k) (RtoC (rb w k)) (fun i => (rr w i k, rr w i (S k))) ->
    left_pair n (real_mat A) (real_mat B) (ra w k, ri w k) (RtoC (rb w k)) (fun i => (rl w i k, rl w i (S k))) ->
    lapack_output n A B w (S (S k)) -> lapack_output n A B w k.
(** what LAPACK's documentation asks for (dggev, dgeev with eigenvectors, zggev, zggevx with SENSE = 'B'); a LOGICAL has four bytes *)
Definition enough_dggev (n : nat) (s : sizes) : Prop := (Nat.max 1 (8 * n) <= lwork s)%nat /\ (Nat.max 1 n <= ld s)%nat.
Definition enough_dgeev (n : nat) (s : sizes) : Prop := (Nat.max 1 (4 * n) <= lwork s)%nat /\ (Nat.max 1 n <= ld s)%nat.
Definition enough_zggev (n : nat) (s : sizes) : Prop :=
  (Nat.max 1 (2 * n) <= lwork s)%nat /\ (8 * n <= rwork s)%nat /\ (Nat.max 1 n <= ld s)%nat.
Definition enough_zggevx (n : nat) (s : sizes) : Prop :=
  (Nat.max 1 (2 * n * n + 2 * n) <= lwork s)%nat /\ (Nat.max 1 (6 * n) <= rwork s)%nat /\ (n + 2 <= iwork s)%nat /\
  (4 * n <= bwork s)%nat /\ (Nat.max 1 n <= ld s)%nat.
