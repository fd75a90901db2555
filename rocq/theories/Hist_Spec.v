(** Specification vocabulary for the optimisation history file. *)
From Coq Require Import String Ascii List Arith Reals.
From Verif Require Import Base Hist_Model.
Import ListNotations.

(** A printed number: at least one character, no white space, shorter than the 20 character
    column, and readable.  C++ prints a double with six significant digits in at most 13
    characters. *)
Fixpoint no_space (s : string) : Prop :=
  match s with
  | EmptyString => True
  | String c r => is_space c = false /\ no_space r
  end.
Definition printable (F : numfmt) : Prop :=
  forall v, fmt F v <> EmptyString /\ no_space (fmt F v) /\ (String.length (fmt F v) < 20)%nat
            /\ exists w, parse F (fmt F v) = Some w.

(** Printing loses nothing of the number [v]. *)
Definition exact_print (F : numfmt) (v : R) : Prop := parse F (fmt F v) = Some v.

(** A freshly constructed object with the file attached (function_evaluation.h L50-61). *)
Definition fresh (h : hist) : Prop := h_iter h = 0%nat /\ h_open h = true /\ h_file h = [].

(** The counts fit strictly inside their ten character columns. *)
Definition counts_fit (h : hist) : Prop :=
  (String.length (dec (h_nvars h)) < 10 /\ String.length (dec (h_neq h)) < 10 /\
   String.length (dec (h_nineq h)) < 10)%nat.

(** Components of a recorded call. *)
Definition c_x (c : call) : list R := match c with (_, x, _, _, _) => x end.
Definition c_f (c : call) : list R := match c with (_, _, _, f, _) => f end.
Definition c_w (c : call) : bool := match c with (_, _, _, _, w) => w end.

(** A call with vectors of the declared sizes. *)
Definition sized (h : hist) (c : call) : Prop :=
  List.length (c_x c) = h_nvars h /\ List.length (c_f c) = (h_neq h + h_nineq h)%nat.

(** [y] is what printing [x] and reading it back yields, componentwise. *)
Definition as_printed (F : numfmt) (xs ys : list R) : Prop :=
  Forall2 (fun x y => parse F (fmt F x) = Some y) xs ys.

(** Default stream precision: six significant digits (two instances are enough). *)
Definition six_digits (F : numfmt) : Prop :=
  fmt F 1234567 = "1.23457e+06"%string /\ fmt F 1234568 = "1.23457e+06"%string.
