(** Model of the block complex solve: /repo/src/base/complex_assembly_base.cpp
    residual_and_jacobian_blocked (409-600) and /repo/src/solver/complex_solver_base.cpp
    solve_block_matrix (333-507).  One process; PETSc allocation calls are not modelled; the Krylov
    solver is an oracle. *)
From Coq Require Import Reals List Arith Bool.
From Verif Require Import Base.
Import ListNotations.
Open Scope R_scope.

(** std::complex<double> *)
Definition cpx : Type := (R * R)%type.
Definition vec : Type := nat -> R.
Definition matrix : Type := nat -> nat -> R.

(** One element: its dofs and the element operations.  [e_calc z] = (vec, mat) of elem_calculations at
    the local complex solution [z]; [e_sens z] = vec of elem_sensitivity_calculations. *)
Record celem : Type := mkE {
  e_n : nat; e_dof : nat -> nat;
  e_calc : (nat -> cpx) -> (nat -> cpx) * (nat -> nat -> cpx);
  e_sens : (nat -> cpx) -> nat -> cpx }.

(** DofMap::constrain_element_matrix / _vector on the local matrix of an element (libMesh, not in /repo):
    functions of the element's dof numbering. *)
Record constrain : Type := mkK {
  k_mat : celem -> matrix -> matrix;
  k_vec : celem -> vec -> vec }.
Definition no_constraints : constrain := mkK (fun _ m => m) (fun _ v => v).
(** libMesh for homogeneous Dirichlet rows: the column and row of a constrained dof are zeroed and its
    diagonal is set to one; in the vector its entry is zeroed *)
Definition dirichlet (c : nat -> bool) : constrain :=
  mkK (fun e m i j => if c (e_dof e i) || c (e_dof e j) then (if Nat.eqb i j then 1 else 0) else m i j)
      (fun e v i => if c (e_dof e i) then 0 else v i).

Section Assemble.
  Variable K : constrain.
  Variable p : bool.      (* sensitivity requested *)
  Variable X : vec.       (* interleaved complex solution *)

  Definition local_sol (e : celem) : nat -> cpx := fun i => (X (2 * e_dof e i)%nat, X (2 * e_dof e i + 1)%nat).
  Definition elem_vec (e : celem) : nat -> cpx :=
    if p then e_sens e (local_sol e) else fst (e_calc e (local_sol e)).
  Definition elem_mat (e : celem) : nat -> nat -> cpx := snd (e_calc e (local_sol e)).

  (** 555-567 *)
  Definition m_R  (e : celem) : matrix := k_mat K e (fun i j => fst (elem_mat e i j)).
  Definition m_I1 (e : celem) : matrix := k_mat K e (fun i j => -1 * snd (elem_mat e i j)).
  Definition m_I2 (e : celem) : matrix := k_mat K e (fun i j => snd (elem_mat e i j)).
  Definition v_R  (e : celem) : vec := k_vec K e (fun i => fst (elem_vec e i)).
  Definition v_I  (e : celem) : vec := k_vec K e (fun i => snd (elem_vec e i)).

  (** 570-585, the residual additions *)
  Definition add_vec (e : celem) (s : arr R) : outcome (arr R) :=
    loop (e_n e) (fun i s =>
      s <- vadd s (2 * e_dof e i) (v_R e i) ;; vadd s (2 * e_dof e i + 1) (v_I e i)) s.
  (** MatSetValuesBlocked with block size 2, row-major 2x2 block [vals] *)
  Definition add_block (I J : nat) (v0 v1 v2 v3 : R) (s : mat R) : outcome (mat R) :=
    s <- madd s (2 * I) (2 * J) v0 ;; s <- madd s (2 * I) (2 * J + 1) v1 ;;
    s <- madd s (2 * I + 1) (2 * J) v2 ;; madd s (2 * I + 1) (2 * J + 1) v3.
  Definition add_mat (e : celem) (s : mat R) : outcome (mat R) :=
    loop (e_n e) (fun i s => loop (e_n e) (fun j s =>
      add_block (e_dof e i) (e_dof e j) (m_R e i j) (m_I1 e i j) (m_I2 e i j) (m_R e i j) s) s) s.

  Fixpoint add_vecs (es : list celem) (s : arr R) : outcome (arr R) :=
    match es with [] => Ok s | e :: es => s <- add_vec e s ;; add_vecs es s end.
  Fixpoint add_mats (es : list celem) (s : mat R) : outcome (mat R) :=
    match es with [] => Ok s | e :: es => s <- add_mat e s ;; add_mats es s end.

  Definition residual_and_jacobian_blocked (N : nat) (es : list celem) : outcome (arr R * mat R) :=
    r <- add_vecs es (fill (2 * N) 0) ;; j <- add_mats es (mfill (2 * N) (2 * N) 0) ;; Ok (r, j).
End Assemble.

(** the four vectors of real_solution()/imag_solution() *)
Record csol : Type := mkCS { c_re : vec; c_im : vec; c_re_sens : vec; c_im_sens : vec }.

(** solve_block_matrix, 333-507; [ksp J b] is KSPSolve *)
Definition solve_block_matrix (K : constrain) (ksp : mat R -> vec -> vec) (N : nat) (es : list celem)
    (p : bool) (s : csol) : outcome csol :=
  let sol : vec := if p then (fun q => if Nat.even q then c_re s (Nat.div2 q) else c_im s (Nat.div2 q))
                   else (fun _ => 0) in
  rj <- residual_and_jacobian_blocked K p sol N es ;;
  let x := ksp (snd rj) (fun q => -1 * cell (fst rj) q) in
  let re : vec := fun i => if Nat.ltb i N then x (2 * i)%nat else 0 in
  let im : vec := fun i => if Nat.ltb i N then x (2 * i + 1)%nat else 0 in
  Ok (if p then mkCS (c_re s) (c_im s) re im else mkCS re im (c_re_sens s) (c_im_sens s)).
