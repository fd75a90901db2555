(** Model of the recovery of the void unknowns of homogenised elements during a nonlinear solve,
    /repo/src/level_set/level_set_void_solution.cpp, with update_factored_element_solution and solution_of_factored_element of
    /repo/src/level_set/interface_dof_handler.cpp L212-240, L381-451 (area Cond has them for arrays).
    Element residuals and Jacobians, the inverse of a matrix and the iterates of PETSc's SNES are data. *)
From Coq Require Import List Arith Bool Reals.
From Verif Require Import Base Sens_Model.
Import ListNotations.
Open Scope R_scope.

Record velem : Type := mkVe {
  ve_id : nat; ve_dofs : list nat;
  ve_fac : bool;                                (* if_factor_element *)
  ve_mat : list nat; ve_void : list nat;        (* partition_local_elem_rows *)
  ve_res : vec -> vec; ve_jac : vec -> matrix;  (* elem_calculations of the whole element *)
  ve_frac : R }.                                (* get_positive_phi_volume_fraction *)
(** _elem_sol *)
Definition vstore : Type := nat -> option vec.
Definition vset (s : vec) (k : nat) (x : R) : vec := fun j => if (j =? k)%nat then x else s j.
(** solution_of_factored_element, interface_dof_handler.cpp L212-240: the void entries are overwritten *)
Definition vlocal (e : velem) (X : vec) (st : vstore) : outcome vec :=
  match st (ve_id e) with
  | None => Fault AssertFailed
  | Some s => Ok (fold_left (fun a k => vset a k (s k)) (ve_void e) (gather (ve_dofs e) X))
  end.
Section Vds.
Variable inv : nat -> matrix -> matrix.         (* _compute_matrix_inverse *)
(** dx_f, L421-437 *)
Definition void_step (e : velem) (res : vec) (jac : matrix) (dsol : vec) (i : nat) : R :=
  let nf := length (ve_void e) in
  let v := fun i => nth i (ve_void e) O in
  let m := fun j => nth j (ve_mat e) O in
  sum nf (fun a => inv nf (fun i j => jac (v i) (v j)) i a *
    (- res (v a) - sum (length (ve_mat e)) (fun j => jac (v a) (m j) * dsol (m j)))).
(** one element of update_void_solution, level_set_void_solution.cpp L222-304, and update_factored_element_solution L381-451 *)
Definition void_elem (X dX : vec) (st : outcome vstore) (e : velem) : outcome vstore :=
  s <- st ;;
  if negb (ve_fac e) then Ok s
  else
    sol <- vlocal e X s ;;
    let dsol := gather (ve_dofs e) dX in
    let res := fun k => ve_frac e * ve_res e sol k in
    let jac := fun k l => ve_frac e * ve_jac e sol k l in
    assert_ (0 <? length (ve_mat e))%nat (assert_ (0 <? length (ve_void e))%nat
    (let new := fold_left (fun a i => vset a (nth i (ve_void e) O) (a (nth i (ve_void e) O) + void_step e res jac dsol i))
                  (seq 0 (length (ve_void e))) sol in
     Ok (fun id => if (id =? ve_id e)%nat then Some new else s id))).
Definition update_void (es : list velem) (X dX : vec) (st : vstore) : outcome vstore := fold_left (void_elem X dX) es (Ok st).

(** the monitor, L41-91: [old]: the vector "old_solution" of the system, X: the current iterate, Y: SNESGetSolutionUpdate *)
Record mon : Type := mkMon { mo_X : vec; mo_old : option vec; mo_st : vstore }.
Definition monitor (es : list velem) (solving : bool) (its : nat) (Y : vec) (s : mon) : outcome mon :=
  if negb solving then Ok s
  else match its with
  | 0%nat => Ok (mkMon (mo_X s) (Some (mo_X s)) (mo_st s))
  | _ => match mo_old s with
    | None => Fault LibError
    | Some old => st <- update_void es old (fun d => - 1 * Y d) (mo_st s) ;; Ok (mkMon (mo_X s) (Some (mo_X s)) st)
    end
  end.
(** SNES: iterate k+1 is iterate k minus a multiple, chosen by the line search, of the update; the monitor is called at iterate 0 and
    after every step *)
Fixpoint steps (es : list velem) (solving : bool) (its : nat) (l : list (R * vec)) (s : mon) : outcome mon :=
  match l with
  | [] => Ok s
  | (lam, Y) :: t =>
      s' <- monitor es solving (S its) Y (mkMon (fun d => mo_X s d - lam * Y d) (mo_old s) (mo_st s)) ;;
      steps es solving (S its) t s'
  end.
Definition solve (es : list velem) (solving : bool) (l : list (R * vec)) (X0 : vec) (st : vstore) : outcome mon :=
  s <- monitor es solving 0 (fun _ => 0) (mkMon X0 None st) ;; steps es solving 0 l s.
End Vds.

(** init, L114-149, and clear, L153-177: the monitors attached to the solver, and whether this object is attached *)
Inductive vcall : Type := VInit | VClear | VOther (k : nat).
Definition vcall_step (st : outcome (bool * list nat)) (c : vcall) : outcome (bool * list nat) :=
  s <- st ;;
  match c with
  | VInit => if fst s then Fault AssertFailed else Ok (true, snd s ++ [O])
  | VClear => if fst s then Ok (false, []) else Ok s      (* SNESMonitorCancel *)
  | VOther k => Ok (fst s, snd s ++ [S k])                (* somebody else's monitor *)
  end.
Definition vcalls (l : list vcall) : outcome (bool * list nat) := fold_left vcall_step l (Ok (false, [])).
