(** Specification of the interpolation operator: the dense matrix that a history of
    set_shape_function calls describes.  Independent of the model. *)
From Coq Require Import List Arith Reals Bool.
From Verif Require Import Base.
Import ListNotations.

(** the values last given for block (i,j) in the history [h] (oldest call first) *)
Fixpoint last_given (h : list (nat * nat * arr R)) (i j : nat) : option (arr R) :=
  match h with
  | [] => None
  | (a, b, s) :: t =>
      match last_given t i j with
      | Some s' => Some s'
      | None => if (a =? i) && (b =? j) then Some s else None
      end
  end.

(** entry (i, c) of the dense matrix with [nd] dofs per variable: column c is dof (c mod nd) of
    discrete variable (c / nd); blocks never given are zero. *)
Definition dense (nd : nat) (h : list (nat * nat * arr R)) (i c : nat) : R :=
  match last_given h i (c / nd) with
  | Some s => cell s (c mod nd)
  | None => 0%R
  end.

(** the calls are in range and give [nd] values each *)
Definition valid_calls (n_iv n_dv nd : nat) (h : list (nat * nat * arr R)) : Prop :=
  Forall (fun c => fst (fst c) < n_iv /\ snd (fst c) < n_dv /\ len (snd c) = nd) h.

(** dense matrix algebra *)
Definition mv (ncol : nat) (A : nat -> nat -> R) (x : nat -> R) (i : nat) : R :=
  sum ncol (fun c => (A i c * x c)%R).
Definition mm (ninner : nat) (A B : nat -> nat -> R) (i j : nat) : R :=
  sum ninner (fun c => (A i c * B c j)%R).
Definition transpose (A : nat -> nat -> R) : nat -> nat -> R := fun i j => A j i.
Definition dot (n : nat) (x y : nat -> R) : R := sum n (fun i => (x i * y i)%R).
