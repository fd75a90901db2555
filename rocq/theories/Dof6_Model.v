(** Operators on elements with six unknowns per node (MAST::FEMOperatorMatrix as the 1D and 2D structural elements use
    it, numerics/fem_operator_matrix.h) and the change between element and global axes
    (elasticity/structural_element_base.cpp).  The unknowns are indexed by variable and node; the C++ flattens the pair
    (c, a) to c*n_phi + a.  What FEMOperatorMatrix computes in that storage is proved in C01 - C03, and that the
    products with the flattened transformation matrix are the functions given here is Beam_Link. *)
From Coq Require Import List Arith Bool Reals.
From Verif Require Import Base Solid_Model.
Import ListNotations.
Open Scope R_scope.

Definition zop : opr := fun _ _ _ => 0.     (* an operator after reinit *)
Definition zf : dofs := fun _ _ => 0.
Definition zj : dmat := fun _ _ _ _ => 0.

Section Ops.
Variable n : nat.       (* n_phi *)
Variable m : nat.       (* rows of the operator *)
(** fem_operator_matrix.h L160-330: vector_mult, vector_mult_transpose, left_multiply and right_multiply_transpose;
    the matrix of the last one may be another operator *)
Definition vm (B : opr) (u : dofs) (r : nat) : R := sum 6 (fun c => sum n (fun a => B r c a * u c a)).
Definition vmt (B : opr) (v : nat -> R) : dofs := fun c a => sum m (fun r => B r c a * v r).
Definition lm (B : opr) (A : nat -> nat -> R) : rmat := fun r c a => sum m (fun k => A r k * B k c a).
Definition rmt (B : opr) (M : rmat) : dmat := fun c a d b => sum m (fun r => B r c a * M r d b).
End Ops.
(** local_f += w * v, local_jac += w * m *)
Definition plusf (w : R) (v f : dofs) : dofs := fun c a => f c a + w * v c a.
Definition plusj (w : R) (v j : dmat) : dmat := fun c a d b => j c a d b + w * v c a d b.

(** structural_element_base.cpp L1566-1676: [t] is the matrix of the axes of the element, None if the element uses the
    global axes.  Translations are the variables 0-2 and rotations the variables 3-5 of every node. *)
Definition frame : Type := option (nat -> nat -> R).
Definition to_local (t : frame) (v : dofs) : dofs := match t with
  | None => v | Some t => fun c a => sum 3 (fun k => t k (c mod 3)%nat * v (3 * (c / 3) + k)%nat a) end.
Definition to_global (t : frame) (v : dofs) : dofs := match t with
  | None => v | Some t => fun c a => sum 3 (fun k => t (c mod 3)%nat k * v (3 * (c / 3) + k)%nat a) end.
Definition mat_to_global (t : frame) (j : dmat) : dmat := match t with
  | None => j | Some t => fun c a d b => sum 3 (fun l => sum 3 (fun k =>
      t (c mod 3)%nat k * j (3 * (c / 3) + k)%nat a (3 * (d / 3) + l)%nat b) * t (d mod 3)%nat l) end.
