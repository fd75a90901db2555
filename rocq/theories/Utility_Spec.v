(** Complex arithmetic used to state C04. *)
From Coq Require Import List Arith Reals.
From Verif Require Import Base.

Definition cadd (a b : R * R) : R * R := (fst a + fst b, snd a + snd b)%R.
Definition cmul (a b : R * R) : R * R :=
  (fst a * fst b - snd a * snd b, fst a * snd b + snd a * fst b)%R.
Definition csum (n : nat) (f : nat -> R * R) : R * R := (sum n (fun k => fst (f k)), sum n (fun k => snd (f k))).

(** complex matrix-vector product *)
Definition cmv (n : nat) (A : nat -> nat -> R * R) (x : nat -> R * R) (i : nat) : R * R :=
  csum n (fun j => cmul (A i j) (x j)).

(** real matrix-vector product *)
Definition rmv (n : nat) (A : nat -> nat -> R) (x : nat -> R) (i : nat) : R :=
  sum n (fun j => A i j * x j)%R.

(** real parts on top of imaginary parts *)
Definition stack (n : nat) (x : nat -> R * R) (k : nat) : R :=
  if k <? n then fst (x k) else snd (x (k - n)).
