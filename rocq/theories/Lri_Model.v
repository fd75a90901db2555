(** Model of the assembly for the reinitialization of a level set,
    /repo/src/level_set/level_set_reinitialization_transient_assembly.{h,cpp}.
    Elements, time scheme and constraints are those of Mph_Model (transient_assembly.cpp); an element reads a reference solution in
    addition.  The vectors of the user are a store by address, since the object keeps a pointer.  A solution function is not modelled.
    [checked]: the assertions of libMesh are compiled in. *)
From Coq Require Import List Arith Bool Reals.
From Verif Require Import Base Sens_Model Mph_Model.
Import ListNotations.
Open Scope R_scope.

(** what the transient solver computes for one element, with the element's reference solution *)
Record relem : Type := mkRe {
  rdofs : list nat;
  r_res : params -> vec -> quants -> vec;
  r_jac : params -> vec -> quants -> matrix }.
Record rsys : Type := mkRs {
  r_cons : sys; r_ranks : list (list relem); r_scheme : scheme;
  r_post : option post;      (* the PostAssemblyOperation that was set *)
  r_prop : bool }.           (* the discipline is in propagation mode *)

(** the object and the vectors of the user: constructor L39-44, set_reference_solution L56-62, clear_reference_solution (h) L45-48 *)
Record rst : Type := mkRst { ref_ptr : option nat; store : nat -> vec }.
Inductive rcall : Type := RSet (a : nat) | RClear | RWrite (a : nat) (v : vec).
Definition rcall_step (checked : bool) (o : outcome rst) (c : rcall) : outcome rst :=
  s <- o ;;
  match c with
  | RSet a => match checked, ref_ptr s with
              | true, Some _ => Fault AssertFailed
              | _, _ => Ok (mkRst (Some a) (store s))
              end
  | RClear => Ok (mkRst None (store s))
  | RWrite a v => Ok (mkRst (ref_ptr s) (upd (store s) a v))
  end.
Definition rcalls (checked : bool) (m : nat -> vec) (l : list rcall) : outcome rst :=
  fold_left (rcall_step checked) l (Ok (mkRst None m)).

Section Lri.
Variables (checked : bool) (S : rsys) (th : params).
(** L119-164: one element; set_elem_reference_solution asks that the element is not in propagation mode,
    level_set_elem_base.cpp L54-59 *)
Definition ri_res (ref : vec) (q : quants) (g : vec) (e : relem) : vec :=
  add_vector (r_cons S) (rdofs e) (r_res e th (gather (rdofs e) ref) (qgather (rdofs e) q)) g.
Definition ri_jac (ref : vec) (q : quants) (g : matrix) (e : relem) : matrix :=
  add_matrix (r_cons S) (rdofs e) (r_jac e th (gather (rdofs e) ref) (qgather (rdofs e) q)) g.
Definition ri_over {A} (step : A -> relem -> A) (g : A) : A :=
  fold_left (fun g rk => fold_left step rk g) (r_ranks S) g.
(** residual_and_jacobian, L66-178; [wr], [wj]: R, J given.  L106-108: the reference is read first.  L151-158: without both the
    0 x 0 matrix of an element does not fit its dofs.  The post assembly operation is not called. *)
Definition reinit_assembly (s : rst) (wr wj : bool) (prev : quants) (X : vec) : outcome (option vec * option matrix) :=
  match ref_ptr s with
  | None => Fault NullDeref
  | Some a =>
    let ref := store s a in
    let q := quantities (mkT (r_cons S) [] (r_scheme S) None) prev X in
    if checked && r_prop S && existsb (fun _ => true) (concat (r_ranks S)) then Fault AssertFailed
    else if negb wr && negb wj && existsb (fun e => negb (length (rdofs e) =? 0)%nat) (concat (r_ranks S)) then Fault AssertFailed
    else Ok (if wr then Some (ri_over (ri_res ref q) zero) else None, if wj then Some (ri_over (ri_jac ref q) mzero) else None)
  end.
End Lri.
