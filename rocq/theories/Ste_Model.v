(** Model of the element operations for the dynamics of structures, /repo/src/elasticity/structural_transient_assembly.cpp, and of those
    for statics, structural_nonlinear_assembly.cpp L110-197, as the time-stepping solvers of Trans_Model use them.
    The terms of a structural element are data: residual, Jacobians, derivative with respect to a parameter, linearised residual.
    A quantity the solver has not set on the element is [None]; elem_base.cpp L115-140. *)
From Coq Require Import Reals.
From Coq Require Import List Arith Bool.
From Verif Require Import Base Trans_Model.
Import ListNotations.
Open Scope R_scope.

Definition smat : Type := nat -> nat -> R.
Definition spar : Type := nat -> R.
Definition vadd (u w : vec) : vec := fun i => u i + w i.
Definition madd (A B : smat) : smat := fun i j => A i j + B i j.
Definition mnull : smat := fun _ _ => 0.
(** a term that adds to a residual only adds to the Jacobian when asked *)
Definition madd_if (b : bool) (A B : smat) : smat := if b then madd A B else A.

(** a force that depends on the solution and its rate: side and volume loads, damping; structural_element_base.h L161-172 *)
Record rterm : Type := mkRt {
  rt_f : spar -> vec -> vec -> vec; rt_jd : spar -> vec -> vec -> smat; rt_j : spar -> vec -> vec -> smat;
  rt_s : spar -> nat -> vec -> vec -> vec; rt_l : spar -> vec -> vec -> vec -> vec -> vec }.
(** internal and inertial force; the inertial force reads the acceleration *)
Record selem : Type := mkSe {
  se_n : nat; se_dofs : nat -> nat;
  se_int : spar -> vec -> vec; se_int_j : spar -> vec -> smat; se_int_s : spar -> nat -> vec -> vec; se_int_l : spar -> vec -> vec -> vec;
  se_pre : spar -> vec -> vec;
  se_dam : rterm; se_side : rterm; se_vol : rterm;
  se_in : spar -> vec -> vec -> vec -> vec; se_in_jdd : spar -> vec -> vec -> vec -> smat;
  se_in_jd : spar -> vec -> vec -> vec -> smat; se_in_j : spar -> vec -> vec -> vec -> smat;
  se_in_s : spar -> nat -> vec -> vec -> vec -> vec; se_in_l : spar -> vec -> vec -> vec -> vec -> vec -> vec -> vec }.

Section Ste.
Variables (e : selem) (th : spar).

(** elem_calculations for solvers of first order, L46-81; the loads add their rate Jacobian to that of f_m *)
Record calc1 : Type := mkC1 { c1_fm : vec; c1_fx : vec; c1_mxd : smat; c1_mx : smat; c1_xx : smat }.
Definition first_calc (b : bool) (x v : vec) : calc1 :=
  let fx := vadd vzero (se_int e th x) in
  let xx := madd_if b mnull (se_int_j e th x) in
  let fx := vadd fx (rt_f (se_side e) th x v) in
  let mxd := madd_if b mnull (rt_jd (se_side e) th x v) in
  let xx := madd_if b xx (rt_j (se_side e) th x v) in
  let fx := vadd fx (rt_f (se_vol e) th x v) in
  let mxd := madd_if b mxd (rt_jd (se_vol e) th x v) in
  let xx := madd_if b xx (rt_j (se_vol e) th x v) in
  let fm := vadd vzero (rt_f (se_dam e) th x v) in
  let mxd := madd_if b mxd (rt_jd (se_dam e) th x v) in
  let mx := madd_if b mnull (rt_j (se_dam e) th x v) in
  mkC1 fm fx mxd mx xx.
(** elem_calculations for solvers of second order, L86-126 *)
Record calc2 : Type := mkC2 { c2_fm : vec; c2_fx : vec; c2_mxdd : smat; c2_mxd : smat; c2_mx : smat; c2_xxd : smat; c2_xx : smat }.
Definition second_calc (b : bool) (x v a : vec) : calc2 :=
  let fx := vadd vzero (se_int e th x) in
  let xx := madd_if b mnull (se_int_j e th x) in
  let fx := vadd fx (rt_f (se_dam e) th x v) in
  let xxd := madd_if b mnull (rt_jd (se_dam e) th x v) in
  let xx := madd_if b xx (rt_j (se_dam e) th x v) in
  let fx := vadd fx (rt_f (se_side e) th x v) in
  let mxd := madd_if b mnull (rt_jd (se_side e) th x v) in
  let xx := madd_if b xx (rt_j (se_side e) th x v) in
  let fx := vadd fx (rt_f (se_vol e) th x v) in
  let mxd := madd_if b mxd (rt_jd (se_vol e) th x v) in
  let xx := madd_if b xx (rt_j (se_vol e) th x v) in
  let fm := vadd vzero (se_in e th x v a) in
  let mxdd := madd_if b mnull (se_in_jdd e th x v a) in
  let mxd := madd_if b mxd (se_in_jd e th x v a) in
  let mx := madd_if b mnull (se_in_j e th x v a) in
  mkC2 fm fx mxdd mxd mx xxd xx.
(** linearized_jacobian_solution_product, L130-163, the same for both orders; [a] acceleration and [da] its perturbation, which the
    solver of first order does not set; first_order_newmark_transient_solver.cpp L44-150 *)
Definition product (x v : vec) (a : option vec) (dx dv : vec) (da : option vec) : outcome vec :=
  let f := vadd vzero (se_int_l e th x dx) in
  let f := vadd f (rt_l (se_side e) th x v dx dv) in
  let f := vadd f (rt_l (se_vol e) th x v dx dv) in
  match a, da with
  | Some a, Some da => Ok (vadd f (se_in_l e th x v a dx dv da))
  | _, _ => Fault OutOfBounds
  end.
(** elem_sensitivity_calculations, L168-204, the same for both orders *)
Definition sens_calc (g : nat) (x v : vec) (a : option vec) : outcome (vec * vec) :=
  let fx := vadd vzero (se_int_s e th g x) in
  let fx := vadd fx (rt_s (se_dam e) th g x v) in
  let fx := vadd fx (rt_s (se_side e) th g x v) in
  let fx := vadd fx (rt_s (se_vol e) th g x v) in
  match a with
  | Some a => Ok (vadd vzero (se_in_s e th g x v a), fx)
  | None => Fault OutOfBounds
  end.
(** elem_sensitivity_calculations of the solvers, first_order L297-317, second_order L392-414: the sum of both *)
Definition solver_sens (g : nat) (x v : vec) (a : option vec) : outcome vec :=
  p <- sens_calc g x v a ;; Ok (vadd (fst p) (snd p)).

(** elem_calculations of statics, structural_nonlinear_assembly.cpp L112-139; the rate of the solution is zero there *)
Definition static_calc (b : bool) (x v : vec) : vec * smat :=
  let f := vadd vzero (se_int e th x) in
  let m := madd_if b mnull (se_int_j e th x) in
  let f := vadd f (rt_f (se_side e) th x v) in
  let m := madd_if b m (rt_j (se_side e) th x v) in
  let f := vadd f (rt_f (se_vol e) th x v) in
  let m := madd_if b m (rt_j (se_vol e) th x v) in
  (f, m).

(** what the solvers of Trans_Model see; the forcing vector does not read the acceleration *)
Definition first_ops : elemops :=
  mkOps (se_n e) (se_dofs e)
    (fun x v _ => c1_fm (first_calc true x v)) (fun x v => c1_fx (first_calc true x v))
    (fun _ _ _ => mnull) (fun x v _ => c1_mxd (first_calc true x v)) (fun x v _ => c1_mx (first_calc true x v))
    (fun _ _ => mnull) (fun x v => c1_xx (first_calc true x v))
    (fun x v a dx dv da => match product x v None dx dv None with Ok f => f | Fault _ => vzero end).
Definition second_ops : elemops :=
  mkOps (se_n e) (se_dofs e)
    (fun x v a => c2_fm (second_calc true x v a)) (fun x v => c2_fx (second_calc true x v vzero))
    (fun x v a => c2_mxdd (second_calc true x v a)) (fun x v a => c2_mxd (second_calc true x v a))
    (fun x v a => c2_mx (second_calc true x v a))
    (fun x v => c2_xxd (second_calc true x v vzero)) (fun x v => c2_xx (second_calc true x v vzero))
    (fun x v a dx dv da => match product x v (Some a) dx dv (Some da) with Ok f => f | Fault _ => vzero end).
End Ste.
