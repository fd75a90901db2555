(** Model of /repo/examples/base/multilinear_interpolation.cpp. *)
From Coq Require Import List Reals.
From Verif Require Import Base RBool.
Import ListNotations.
Open Scope R_scope.

(** A FieldFunction<Real>: its value and its derivative() with respect to the parameter, for a value of
    the parameter and the first coordinate of the point (the other coordinates and the time are
    passed through unchanged and left out). *)
Record field := mkField { f_val : R -> R -> R; f_der : R -> R -> R }.
(** The stations, in increasing order: a std::map from the abscissa. *)
Definition table := list (R * field).

(** std::map::lower_bound: the first station at or above [x], with the one before it. *)
Fixpoint bracket (prev : R * field) (l : table) (x : R) : option ((R * field) * (R * field)) :=
  match l with
  | [] => None
  | s :: r => if rleb x (fst s) then Some (prev, s) else bracket s r x
  end.
(** L51-90 operator() and L94-136 derivative(): in both, it1 is the upper station after [it1 = it2--].
    [ev_out] evaluates the functions at and beyond the ends, [ev] between. *)
Definition interpolate (ev_out ev : field -> R) (l : table) (x : R) : outcome R :=
  match l with
  | [] => Fault OutOfBounds
  | s :: r =>
      if rleb x (fst s) then Ok (ev_out (snd s))
      else if rleb (fst (last l s)) x then Ok (ev_out (snd (last l s)))
      else match bracket s r x with
           | None => Fault OutOfBounds
           | Some (it2, it1) =>
               let f0 := ev (snd it1) in
               let f1 := ev (snd it2) in
               Ok (f0 + (x - fst it1) / (fst it2 - fst it1) * (f1 - f0))
           end
  end.
Definition interp_value (l : table) (th x : R) : outcome R := interpolate (fun f => f_val f th x) (fun f => f_val f th x) l x.
Definition interp_derivative (l : table) (th x : R) : outcome R := interpolate (fun f => f_val f th x) (fun f => f_der f th x) l x.

(** SectionOffset, L140-180. *)
Definition offset_value (dim : field) (scale th x : R) : R := f_val dim th x * ((1/2) * scale).
Definition offset_derivative (dim : field) (scale th x : R) : R := f_der dim th x * ((1/2) * scale).
