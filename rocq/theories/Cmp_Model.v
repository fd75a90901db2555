(** Model of elasticity/compliance_output.cpp, as the output of the assembly modelled in Sens_Model.

    The residuals of a structural element are data of the model: what internal_residual, side_external_residual and
    volume_external_residual add to a vector, and what their sensitivities add (the loads themselves are modelled in
    Load_Model).  External residuals are minus the loads. *)
From Coq Require Import Reals List Arith Bool.
From Verif Require Import Base Sens_Model.
Import ListNotations.
Open Scope R_scope.

Record selem : Type := mkSel {
  s_sub : nat;                                   (* subdomain *)
  s_dofs : list nat;
  s_int : params -> vec -> vec;                  (* internal_residual *)
  s_side : params -> vec -> vec;                 (* side_external_residual *)
  s_vol : params -> vec -> vec;                  (* volume_external_residual *)
  s_jac : params -> vec -> matrix;
  s_dint : params -> nat -> vec -> vec;          (* and their sensitivities with the solution held fixed *)
  s_dside : params -> nat -> vec -> vec;
  s_dvol : params -> nat -> vec -> vec;
  s_topo : params -> nat -> vec -> vec;
  s_here : bool;                                 (* if_evaluate_for_element *)
  s_front : option nat;                          (* the side of the element that lies on the level set boundary, when
                                                    the element is cut, or get_elem_boundary_velocity_data *)
  s_vfront : nat -> params -> vec -> vec }.      (* volume_external_residual_boundary_velocity on that side *)

Definition v0 : vec := fun _ => 0.
Definition plus_ (f g : vec) : vec := fun k => f k + g k.
(** the vector both external residuals are added to *)
Definition external (e : selem) (th : params) (x : vec) : vec := plus_ (plus_ v0 (s_side e th x)) (s_vol e th x).
Definition dexternal (e : selem) (th : params) (f : nat) (x : vec) : vec :=
  plus_ (plus_ v0 (s_dside e th f x)) (s_dvol e th f x).
(** evaluate, cpp:72-102: what it adds *)
Definition compliance (e : selem) (th : params) (x : vec) : R := 0 - dot (length (s_dofs e)) (external e th x) x.
(** output_derivative_for_elem, cpp:266-296; the vector is zero when the element does not take part *)
Definition compliance_dX (e : selem) (th : params) (x : vec) : vec := fun k => external e th x k * -1.
(** evaluate_sensitivity, cpp:107-152 *)
Definition compliance_sensitivity (e : selem) (th : params) (f : nat) (x dx : vec) : R :=
  0 - dot (length (s_dofs e)) (dexternal e th f x) x - dot (length (s_dofs e)) (external e th x) dx.
(** evaluate_topology_sensitivity, cpp:156-192 and cpp:196-235: what they add; the parameter has to be a topology
    parameter *)
Definition compliance_topology (topology : bool) (e : selem) (th : params) (x : vec) : outcome R :=
  assert_ topology (Ok (if s_here e then
    match s_front e with
    | Some s => 0 - dot (length (s_dofs e)) (plus_ v0 (s_vfront e s th x)) x
    | None => 0
    end else 0)).
(** the element and the output as the assembly sees them; the residual is that of
    structural_nonlinear_assembly.cpp:113-139 *)
Definition as_elem (e : selem) : elem := mkElem (s_sub e) (s_dofs e)
  (fun th x => plus_ (plus_ (plus_ v0 (s_int e th x)) (s_side e th x)) (s_vol e th x))
  (s_jac e)
  (fun th f x => plus_ (plus_ (plus_ v0 (s_dint e th f x)) (s_dside e th f x)) (s_dvol e th f x))
  (s_topo e) (s_here e) (compliance e) (compliance_dX e) (compliance_sensitivity e).
