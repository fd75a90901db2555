(** Which elements and boundaries take part in an output, and the right hand side of the thermal adjoint problem of a stress output
    (base/output_assembly_elem_operations.cpp, elasticity/stress_temperature_adjoint.cpp).
    Simplified: pointers to elements are numbers; the result is added to a global vector without the constraints of the thermal dofs
    (constrain_element_vector); the derivative of the aggregated stress is a linear function of the derivative data of the element. *)
From Coq Require Import Reals List Arith Bool.
From Verif Require Import Base Sens_Model.
Import ListNotations.
Open Scope R_scope.

(** * Participation, output_assembly_elem_operations.cpp *)
(** an element of the mesh: itself, its ancestors (parent first), its subdomain *)
Record melem : Type := mkMe { m_id : nat; m_up : list nat; m_sub : nat }.
(** the members _if_evaluate_on_all_elems, _sub_domain_ids, _elem_subset, _bids *)
Record chosen : Type := mkCh { c_all : bool; c_subs : list nat; c_elems : list nat; c_bids : list nat }.
(** L31-34 *)
Definition fresh : chosen := mkCh false [] [] [].
Definition empty (l : list nat) : bool := match l with [] => true | _ => false end.
Definition mem (x : nat) (l : list nat) : bool := existsb (Nat.eqb x) l.
(** L45-57 *)
Definition choose_subdomains (l : list nat) (c : chosen) : outcome chosen :=
  assert_ (empty (c_subs c)) (assert_ (empty (c_elems c)) (Ok (mkCh false l (c_elems c) (c_bids c)))).
(** L61-70 *)
Definition choose_all (c : chosen) : outcome chosen :=
  assert_ (empty (c_subs c)) (assert_ (empty (c_elems c)) (Ok (mkCh true (c_subs c) (c_elems c) (c_bids c)))).
(** L73-84 *)
Definition choose_elements (l : list nat) (c : chosen) : outcome chosen :=
  assert_ (empty (c_subs c)) (assert_ (empty (c_elems c)) (Ok (mkCh false (c_subs c) l (c_bids c)))).
(** L88-95 *)
Definition choose_boundaries (l : list nat) (c : chosen) : outcome chosen :=
  assert_ (empty (c_bids c)) (Ok (mkCh (c_all c) (c_subs c) (c_elems c) l)).
(** if_evaluate_for_element, L122-155: the parent if there is one, else the element itself *)
Definition evaluates (c : chosen) (e : melem) : bool :=
  if c_all c then true else if mem (m_sub e) (c_subs c) then true
  else mem (match m_up e with p :: _ => p | [] => m_id e end) (c_elems c).
(** if_evaluate_for_boundary, L158-180: bc_ids are the boundary ids of the side *)
Fixpoint evaluates_side (c : chosen) (bc_ids : list nat) : bool :=
  match bc_ids with [] => false | b :: t => if mem b (c_bids c) then true else evaluates_side c t end.

(** * Adjoint of the temperature, stress_temperature_adjoint.cpp *)
(** an element as the thermal assembly sees it: thermal dofs, structural dofs, participation in the stress output, thermal load;
    te_size and te_data: number of columns and content of the derivative data of its stress points, left over from the structural
    adjoint; te_dstress: data after calculate_stress_temperature_derivative; te_mat: thermal_residual_temperature_derivative;
    te_fun: the derivative of the aggregated stress for given data (functional_state_derivartive_for_elem). *)
Record telem : Type := mkTe {
  te_t : list nat; te_s : list nat; te_part : bool; te_load : bool;
  te_size : nat; te_data : nat -> vec; te_dstress : nat -> vec; te_mat : nat -> vec; te_fun : (nat -> vec) -> vec }.
(** output_derivative_for_elem, L103-146.  ready: primal_data_initialized and not plot mode; adj: localized structural adjoint.
    The data of every stress point is added to vectors with one entry per thermal dof: another size is an Eigen assertion. *)
Definition temperature_elem (ready : bool) (adj : vec) (e : telem) : outcome vec :=
  assert_ ready
    (if te_part e then
       let mat := if te_load e then te_mat e else (fun _ => zero) in
       let size := if te_load e then length (te_t e) else te_size e in
       let data := if te_load e then te_dstress e else te_data e in
       assert_ (size =? length (te_t e))%nat
         (Ok (fun j => te_fun e data j + sum (length (te_s e)) (fun k => adj (dof (te_s e) k) * mat k j)))
     else Ok zero).
(** dq_dX.add_vector: a local vector added into a global one *)
Definition spread (ds : list nat) (v : vec) : vec := fun d => sum (length ds) (fun k => if (dof ds k =? d)%nat then v k else 0).
(** base/assembly_base.cpp L338-437 (calculate_output_derivative): the contributions of the elements are added.
    Simplified: no diagonal subdomains. *)
Fixpoint temperature_rhs (ready : bool) (adj : vec) (es : list telem) (acc : vec) : outcome vec :=
  match es with
  | [] => Ok acc
  | e :: t => v <- temperature_elem ready adj e ;; temperature_rhs ready adj t (fun d => acc d + spread (te_t e) v d)
  end.
