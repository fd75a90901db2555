(** What the void unknowns should satisfy. *)
From Coq Require Import List Arith Reals Permutation.
From Verif Require Import Base Sens_Model Sens_Spec Vds_Model.
Import ListNotations.
Open Scope R_scope.

(** the full local state: material unknowns from the system, void unknowns from the store *)
Definition full_state (e : velem) (X s : vec) : vec := fun k => if in_dec Nat.eq_dec k (ve_void e) then s k else X (nth k (ve_dofs e) O).
(** every local unknown is either material or void; there are some of both *)
Definition split_ok (e : velem) : Prop :=
  Permutation (ve_mat e ++ ve_void e) (seq 0 (length (ve_dofs e))) /\ ve_mat e <> [] /\ ve_void e <> [].
(** the inverse is one for the block of the void *)
Definition inverts (inv : nat -> matrix -> matrix) (e : velem) (J : matrix) : Prop :=
  let nf := length (ve_void e) in let M := fun i j => J (nth i (ve_void e) O) (nth j (ve_void e) O) in
  forall i k, (i < nf)%nat -> (k < nf)%nat -> sum nf (fun j => M i j * inv nf M j k) = if (i =? k)%nat then 1 else 0.
(** a linear element: residual K x - b *)
Definition linear_elem (e : velem) (K : matrix) (b : vec) : Prop :=
  forall s, (forall k, ve_res e s k = sum (length (ve_dofs e)) (fun j => K k j * s j) - b k) /\ forall k l, ve_jac e s k l = K k l.
(** the elements have their own entries in the store *)
Definition stored (es : list velem) (st : vstore) : Prop := NoDup (map ve_id es) /\ forall e, In e es -> ve_fac e = true -> st (ve_id e) <> None.
(** one step of Newton's method for the void equations of an element, from the void unknowns s to s': the linearised residual vanishes for
    the change dX of the system *)
Definition linearised (e : velem) (X dX s s' : vec) : Prop := forall i, (i < length (ve_void e))%nat ->
  let x := full_state e X s in
  ve_res e x (nth i (ve_void e) O)
  + sum (length (ve_mat e)) (fun j => ve_jac e x (nth i (ve_void e) O) (nth j (ve_mat e) O) * dX (nth (nth j (ve_mat e) O) (ve_dofs e) O))
  + sum (length (ve_void e)) (fun j => ve_jac e x (nth i (ve_void e) O) (nth j (ve_void e) O) * (s' (nth j (ve_void e) O) - s (nth j (ve_void e) O))) = 0.
(** the element routines see values only *)
Definition extensional_elem (e : velem) : Prop := forall a b, (forall k, a k = b k) ->
  (forall k, ve_res e a k = ve_res e b k) /\ forall k l, ve_jac e a k l = ve_jac e b k l.
Definition good_elem (inv : nat -> matrix -> matrix) (e : velem) : Prop :=
  split_ok e /\ extensional_elem e /\ ve_frac e <> 0 /\ forall s, inverts inv e (fun k l => ve_frac e * ve_jac e s k l).
