(** Model of the element operations of the harmonic analysis of a flow,
    /repo/src/fluid/frequency_domain_linearized_complex_assembly.cpp, over the element of Fdf_Model.
    Simplified: a frequency is its value when it is given, not a pointer that sees later changes; the system and the assembly that
    [init] wants are there. *)
From Coq Require Import List Arith Bool Reals.
From Verif Require Import Base Flui_Model Cfe_Model Fdf_Model.
Import ListNotations.
Open Scope R_scope.

Section Fda.
Variables (d : nat) (cp cv : R) (nphi : nat).
(** elem_calculations, L74-92: vector and matrix are set to zero; interior, then sides *)
Definition fd_elem (fr : option freqfn) (asked : bool) (tau : fpt -> prim -> mx) (shock : option (fpt -> evec -> vec)) (qps : list fpt)
    (sides : list (list fpt * fdside)) (x : evec) (z : cvec) : outcome (cvec * cmat) :=
  a <- fd_internal d cp cv nphi fr asked tau shock qps x z ((ev0, ev0), (em0, em0)) ;;
  fd_sides d cp cv nphi fr asked sides x z a.
(** elem_sensitivity_calculations, L96-115 *)
Definition fd_elem_sens (fr : option freqfn) (tau : fpt -> prim -> mx) (shock : option (fpt -> evec -> vec)) (qps : list fpt)
    (sides : list (list fpt * fdside)) (x : evec) (z zs : cvec) : outcome cvec :=
  a <- fd_internal_sens d cp cv nphi fr tau shock qps x z zs (ev0, ev0) ;;
  fd_sides_sens d cp cv nphi fr sides x zs a.

(** ** the object: the frequency and the element at hand, with the frequency that element was given *)
Record fdops : Type := mkOps { op_freq : option freqfn; op_elem : option (option freqfn) }.
(** constructor, L29-34; assembly_elem_operation.cpp L36-45 *)
Definition ops_new : fdops := mkOps None None.
Inductive fdcall : Type := SetFrequency (f : freqfn) | ClearFrequency | InitElem | ClearElem.
(** set_frequency_function L48-57, clear_frequency_function L62-67, init L119-137, clear_elem in assembly_elem_operation.cpp L195-202 *)
Definition ops_call (c : fdcall) (o : fdops) : outcome fdops :=
  match c with
  | SetFrequency f => match op_freq o with Some _ => Fault AssertFailed | None => Ok (mkOps (Some f) (op_elem o)) end
  | ClearFrequency => Ok (mkOps None (op_elem o))
  | InitElem => match op_elem o with Some _ => Fault AssertFailed | None => Ok (mkOps (op_freq o) (Some (op_freq o))) end
  | ClearElem => Ok (mkOps (op_freq o) None)
  end.
(** elem_calculations and elem_sensitivity_calculations want an element *)
Definition ops_calc (o : fdops) (asked : bool) (tau : fpt -> prim -> mx) (shock : option (fpt -> evec -> vec)) (qps : list fpt)
    (sides : list (list fpt * fdside)) (x : evec) (z : cvec) : outcome (cvec * cmat) :=
  match op_elem o with None => Fault AssertFailed | Some fr => fd_elem fr asked tau shock qps sides x z end.
Definition ops_sens (o : fdops) (tau : fpt -> prim -> mx) (shock : option (fpt -> evec -> vec)) (qps : list fpt)
    (sides : list (list fpt * fdside)) (x : evec) (z zs : cvec) : outcome cvec :=
  match op_elem o with None => Fault AssertFailed | Some fr => fd_elem_sens fr tau shock qps sides x z zs end.
End Fda.
