(** Model of level_set/level_set_constrain_dofs.cpp and level_set/indicator_function_constrain_dofs.cpp: the constraints
    that switch off the dofs of the void.

    An element is given by its dofs and by the answers of the LevelSetIntersection object after init on it (modelled in
    Isec_Model): if_elem_has_positive_phi_region, if_elem_has_boundary, get_node_phi_value at its nodes with the dofs of
    the node, and the nodal values of the indicator function. *)
From Coq Require Import Reals List Arith Bool.
From Verif Require Import Base RBool.
Import ListNotations.
Open Scope R_scope.

Record vcell : Type := mkVc {
  v_dofs : list nat;
  v_pos : bool;
  v_cut : bool;
  v_nodes : list (R * list nat);
  v_ind : list R }.

(** libMesh::DofMap: the constraint row of a dof; add_constraint_row(..., forbid_constraint_overwrite = true) throws when
    there is one already *)
Definition drows : Type := nat -> option (list (nat * R)).
Definition is_constrained (C : drows) (d : nat) : bool := match C d with Some _ => true | None => false end.
Definition add_row (C : drows) (d : nat) (r : list (nat * R)) : outcome drows :=
  if is_constrained C d then Fault LibError else Ok (fun k => if (k =? d)%nat then Some r else C k).
(** std::set<dof_id_type>: an ordered list *)
Fixpoint ins (d : nat) (s : list nat) : list nat :=
  match s with
  | [] => [d]
  | a :: s' => if (d <? a)%nat then d :: s else if (d =? a)%nat then s else a :: ins d s'
  end.
Definition insert_all (ds s : list nat) : list nat := fold_left (fun s d => ins d s) ds s.
Definition mem (d : nat) (s : list nat) : bool := existsb (Nat.eqb d) s.

(** LevelSetConstrainDofs::constrain, level_set_constrain_dofs.cpp:81-127: the body of the loop over the elements of the
    process; state: all_dof_indices, connected_dof_indices, negative_dof_indices *)
Definition cell_step (option_ : bool) (st : list nat * list nat * list nat) (c : vcell) : list nat * list nat * list nat :=
  let '(all, conn, neg) := st in
  let all := insert_all (v_dofs c) all in
  let conn := if v_pos c then insert_all (v_dofs c) conn else conn in
  let neg := if option_ && v_cut c
             then fold_left (fun neg nd => if rleb (fst nd) 0 then insert_all (snd nd) neg else neg) (v_nodes c) neg
             else neg in
  (all, conn, neg).
(** cpp:146-160 and cpp:165-182: the loops that add the rows *)
Fixpoint add_rows (skip : nat -> bool) (ds : list nat) (C : drows) : outcome drows :=
  match ds with
  | [] => Ok C
  | d :: ds => if is_constrained C d || skip d then add_rows skip ds C
               else C' <- add_row C d [] ;; add_rows skip ds C'
  end.
(** cpp:65-183.  reserve throws when all has fewer entries than connected, whose difference is an unsigned number. *)
Definition constrain (option_ : bool) (cells : list vcell) (C : drows) : outcome drows :=
  let '(all, conn, neg) := fold_left (cell_step option_) cells ([], [], []) in
  if (length all <? length conn)%nat then Fault LibError
  else
    C <- add_rows (fun _ => false) (filter (fun d => negb (mem d conn)) all) C ;;
    if option_ then add_rows (fun _ => false) neg C else Ok C.

(** IndicatorFunctionConstrainDofs::constrain, indicator_function_constrain_dofs.cpp:83-135.  maxCoeff of an empty vector
    is an error of Eigen. *)
Definition tol : R := / 10 ^ 10.
Definition max_coeff (v : list R) : outcome R :=
  match v with [] => Fault AssertFailed | a :: v => Ok (fold_left Rmax v a) end.
Definition ind_step (st : list nat * list nat) (c : vcell) : outcome (list nat * list nat) :=
  let '(con, exc) := st in
  m <- max_coeff (v_ind c) ;;
  let con := if rltb tol m then con else insert_all (v_dofs c) con in
  let exc := if v_cut c && rltb tol m then insert_all (v_dofs c) exc else exc in
  Ok (con, exc).
Fixpoint ind_loop (cells : list vcell) (st : list nat * list nat) : outcome (list nat * list nat) :=
  match cells with [] => Ok st | c :: cells => st <- ind_step st c ;; ind_loop cells st end.
(** cpp:47-160 *)
Definition constrain_indicator (option_ : bool) (cells : list vcell) (C : drows) : outcome drows :=
  C <- constrain option_ cells C ;;
  sets <- ind_loop cells ([], []) ;;
  let '(con, exc) := sets in
  add_rows (fun d => mem d exc) con C.
