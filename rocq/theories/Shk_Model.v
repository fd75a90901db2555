(** Model of the shock capturing coefficient of a flow element, calculate_aliabadi_discontinuity_operator in
    /repo/src/fluid/fluid_elem_base.cpp L2238-2366, called by internal_residual of conservative_fluid_element_base.cpp L170-177.
    The derivatives of the coordinates of the element, calculate_dxidX L2094-2170, are an argument.  A root of a negative number is a
    fault ([Uninit]: not a number). *)
From Coq Require Import List Arith Bool Reals.
From Verif Require Import Base RBool Flui_Model Cfe_Model.
Import ListNotations.
Open Scope R_scope.

(** _include_pressure_switch, _dissipation_scaling (fluid_elem_base.h L450-460) and the order of the finite element *)
Record shkcfg : Type := mkShk { sk_switch : bool; sk_scale : R; sk_order : nat }.
Section Shk.
Variables (d : nat) (cp cv : R) (nphi : nat).
(** v.dot(B v) *)
Definition quad (B : mx) (y : vec) : R := sum (2 + d) (fun i => y i * mvec (2 + d) B y i).
(** L2238-2366.  With the pressure switch L2340 makes a vector by Zero(n1, n1), which Eigen refuses: a vector has one column. *)
Definition shock_op (k : shkcfg) (dxi : fpt -> nat -> nat -> R) (x : evec) (q : fpt) : outcome vec :=
  s <- prim_init d cp cv false (fe_U nphi q x) ;;
  A <- each mx0 d (fun c => adv_jac d c (cp - cv) cv (cp / cv) s) ;;
  B <- dV_dU d cv (cp / cv) s ;;
  let g := fe_dU nphi q x in
  let r := fun i => sum d (fun c => mvec (2 + d) (A c) (g c) i) in
  let num := quad B r in
  let den := 1 / 1000000 + sum d (fun i => quad B (fun v => sum d (fun j => dxi q i j * g j v))) in
  if reqb den 0 then Fault DivByZero
  else if rltb (num / den) 0 then Fault Uninit
  else if sk_switch k then Fault AssertFailed
  else if Nat.eqb (sk_order k) 0 then Fault DivByZero
  else Ok (fun i => if Nat.ltb i d then sqrt (num / den) * sk_scale k / INR (sk_order k) else 0).
End Shk.
