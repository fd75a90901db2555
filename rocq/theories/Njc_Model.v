(** Model of the check of element matrices by finite differences, /repo/src/base/nonlinear_implicit_assembly_elem_operations.cpp.
    Numbers are reals: rounding and NaN are not modelled.  A matrix is a function of row and column together with its sizes. *)
From Coq Require Import List Arith Bool Reals.
From Verif Require Import Base RBool.
Import ListNotations.
Open Scope R_scope.

Definition nvec : Type := nat -> R.
Definition nmat : Type := nat -> nat -> R.
(** L40-44 is_numerical_zero *)
Definition is_zero (v eps : R) : bool := rleb (Rabs v) eps.
(** L47-69 compare *)
Definition ceps : R := / 10 ^ 7.
Definition compare (v1 v2 tol : R) : bool :=
  if is_zero v1 ceps && is_zero v2 ceps then true
  else if is_zero (v1 - v2) ceps then true
  else if rltb 0 (Rabs v1) then rleb (Rabs ((v1 - v2) / v1)) tol
  else false.
(** L71-97 compare_matrix: the pairs of indices that are printed, row after row; it passes if there is none *)
Definition failures (rows cols : nat) (m0 m : nmat) (tol : R) : list (nat * nat) :=
  flat_map (fun i => flat_map (fun j => if compare (m0 i j) (m i j) tol then [] else [(i, j)]) (seq 0 cols)) (seq 0 rows).
Definition compare_matrix (s0 s : nat * nat) (m0 m : nmat) (tol : R) : outcome (list (nat * nat) * bool) :=
  assert_ ((fst s0 =? fst s)%nat && (snd s0 =? snd s)%nat)
    (let l := failures (fst s0) (snd s0) m0 m tol in Ok (l, match l with [] => true | _ => false end)).

(** An element: what its calculation makes of the vector and of the matrix it is given, for the solution it was given last.  The matrix
    is left alone unless asked for. *)
Record nelem : Type := mkNe { ne_vec : nvec -> nvec -> nvec; ne_mat : nvec -> nmat -> nmat }.
(** what is left behind: the analytical and the numerical matrix, as printed, the failures, as printed, and the element's solution *)
Record nprint : Type := mkNp { np_jac0 : nmat; np_jac : nmat; np_fail : list (nat * nat); np_sol : nvec }.
Definition delta : R := / 10 ^ 8.
Definition nshift (x : nvec) (i : nat) : nvec := fun k => if (k =? i)%nat then x k + delta else x k.
Definition nzero : nvec := fun _ => 0.
(** L101-147 check_element_numerical_jacobian; the loop carries the vector [dres], which is not cleared, from column to column *)
Fixpoint ncolumns (E : nelem) (x res0 : nvec) (k : nat) (l : list nat) (dres : nvec) (jac : nmat) : nmat :=
  match l with
  | [] => jac
  | i :: t => let d := ne_vec E (nshift x i) dres in
              ncolumns E x res0 k t d (fun r c => if (c =? i)%nat then (d r - res0 r) / delta else jac r c)
  end.
Definition ncheck (n : nat) (E : nelem) (x : nvec) : outcome nprint :=
  let res0 := ne_vec E x nzero in
  let jac0 := ne_mat E x (fun _ _ => 0) in
  let jac := ncolumns E x res0 n (seq 0 n) nzero (fun _ _ => 0) in
  r <- compare_matrix (n, n) (n, n) jac jac0 (/ 10 ^ 5) ;;
  Ok (mkNp jac0 jac (fst r) x).
