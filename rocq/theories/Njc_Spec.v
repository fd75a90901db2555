(** What a check of matrices is expected to find. *)
From Coq Require Import List Arith Bool Reals.
From Verif Require Import Base Njc_Model.
Import ListNotations.
Open Scope R_scope.

(** the residual with unknown j moved by t *)
Definition moved (x : nvec) (j : nat) (t : R) : nvec := fun k => if (k =? j)%nat then x k + t else x k.
(** the element computes the residual [F], whatever was in the vector before, and the matrix [J] *)
Definition computes (E : nelem) (F : nvec -> nvec) (J : nvec -> nmat) : Prop :=
  (forall x v i, ne_vec E x v i = F x i) /\ (forall x i j, ne_mat E x (fun _ _ => 0) i j = J x i j).
(** [D] is the derivative of the residual at x, and along each unknown it changes at most by [L] times the way gone *)
Definition smooth (n : nat) (F : nvec -> nvec) (x : nvec) (D : nmat) (L : R) : Prop :=
  forall i j, (i < n)%nat -> (j < n)%nat -> exists g, g 0 = D i j /\
    (forall t, 0 <= t <= / 10 ^ 8 -> derivable_pt_lim (fun s => F (moved x j s) i) t (g t)) /\
    (forall t, 0 <= t <= / 10 ^ 8 -> Rabs (g t - g 0) <= L * t).
