(** Model of the coupling of meshes: elasticity/kinematic_coupling_constraint.{h,cpp},
    elasticity/kinematic_coupling.{h,cpp}, mesh/mesh_coupling_base.cpp, and of the rigid body modes of
    elasticity/structural_near_null_vector_space.cpp.

    A node is its number; positions and dof numbers of nodes are data of the model.  A std::set of nodes is a list
    without repetition, in the order of iteration (the order of the addresses); a std::map is a list of entries.
    libMesh's DofMap is the list of its constraint rows: a row (k, r, b) stands for u_k = sum of r_j u_j + b, which
    is how libMesh reads it.  The distribution over processes is not modelled.  Reals are exact; exp does not
    underflow. *)
From Coq Require Import Reals List Arith Bool.
From Verif Require Import Base RBool.
Import ListNotations.
Open Scope R_scope.

Definition crow : Type := list (nat * R).                     (* libMesh::DofConstraintRow *)
Definition constraint : Type := (nat * crow * R)%type.        (* dof, row, right hand side *)
(** std::map: operator[] followed by an assignment *)
Fixpoint put {A} (k : nat) (v : A) (l : list (nat * A)) : list (nat * A) :=
  match l with
  | [] => [(k, v)]
  | (j, w) :: l => if (j =? k)%nat then (k, v) :: l else (j, w) :: put k v l
  end.
(** v[i] of a std::vector *)
Definition at_ {A} (l : list A) (i : nat) : outcome A :=
  match nth_error l i with Some a => Ok a | None => Fault OutOfBounds end.

Section Nodes.
Variable pos : nat -> nat -> R.                      (* position of a node *)
Variable dofs : nat -> list nat.                     (* DofMap::dof_indices(node) *)

(** Point::norm of the difference of two nodes *)
Definition dist (a b : nat) : R := sqrt (sum 3 (fun i => (pos a i - pos b i) ^ 2)).

(** ** KinematicCouplingConstraint *)
(** the weights, constraint.cpp:66-105 *)
Definition closeness (slave m : nat) : R := exp (- dist slave m).
Definition closeness_sum (slave : nat) (masters : list nat) : R :=
  fold_left (fun s m => s + closeness slave m) masters 0.
Definition weight (slave : nat) (masters : list nat) (m : nat) : R := closeness slave m / closeness_sum slave masters.
(** what one master adds to the row of variable i, constraint.cpp:133-176 *)
Definition master_entries (slave m : nat) (w : R) (i : nat) (row : crow) : outcome crow :=
  let dx := fun k => pos slave k - pos m k in
  let md := dofs m in
  a <- at_ md i ;;
  let row := put a (- w * -1) row in
  match i with
  | 0%nat => y <- at_ md 4 ;; z <- at_ md 5 ;; Ok (put z (dx 1%nat * w) (put y (- dx 2%nat * w) row))
  | 1%nat => x <- at_ md 3 ;; z <- at_ md 5 ;; Ok (put z (dx 0%nat * w) (put x (- dx 2%nat * w) row))
  | 2%nat => x <- at_ md 3 ;; y <- at_ md 4 ;; Ok (put y (dx 0%nat * w) (put x (- dx 1%nat * w) row))
  | _ => Ok row
  end.
Fixpoint row_of (slave : nat) (ms : list nat) (w : nat -> R) (i : nat) (row : crow) : outcome crow :=
  match ms with
  | [] => Ok row
  | m :: ms => row <- master_entries slave m (w m) i row ;; row_of slave ms w i row
  end.
(** n_constrain_nodes, constraint.h:85-89 *)
Definition n_constrain (rotations : bool) : nat := if rotations then 6 else 3.
(** get_dof_constraint_row, constraint.cpp:44-180 *)
Fixpoint rows_from (slave : nat) (masters : list nat) (i n : nat) : outcome (list constraint) :=
  match n with
  | O => Ok []
  | S n => s <- at_ (dofs slave) i ;;
           r <- row_of slave masters (weight slave masters) i [] ;;
           l <- rows_from slave masters (S i) n ;;
           Ok ((s, r, 0) :: l)
  end.
Definition get_dof_constraint_row (slave : nat) (masters : list nat) (rotations : bool) : outcome (list constraint) :=
  rows_from slave masters 0 (n_constrain rotations).

(** ** KinematicCoupling *)
Variable dbg : bool.
Record kstate := mkK { k_started : bool; k_map : list (nat * (list nat * bool)) }.
Definition k_start : kstate := mkK false [].
Definition has {A} (k : nat) (l : list (nat * A)) : bool := existsb (fun e => (fst e =? k)%nat) l.
(** add_master_and_slave for one slave, coupling.cpp:63-79 *)
Definition add_one (s : kstate) (slave : nat) (masters : list nat) (rotations : bool) : outcome kstate :=
  if dbg && (k_started s || has slave (k_map s)) then Fault AssertFailed
  else Ok (mkK (k_started s) (put slave (masters, rotations) (k_map s))).
(** add_master_and_slave for a list of couplings, coupling.cpp:50-60 *)
Fixpoint add_all (s : kstate) (cs : list (nat * list nat)) (rotations : bool) : outcome kstate :=
  match cs with
  | [] => Ok s
  | (slave, masters) :: cs => s <- add_one s slave masters rotations ;; add_all s cs rotations
  end.
Fixpoint all_rows (l : list (nat * (list nat * bool))) : outcome (list constraint) :=
  match l with
  | [] => Ok []
  | (slave, (masters, rot)) :: l =>
      c <- get_dof_constraint_row slave masters rot ;; r <- all_rows l ;; Ok (c ++ r)
  end.
(** get_constraint_rows, coupling.cpp:103-141; the size is asserted with assertions *)
Definition get_constraint_rows (s : kstate) : outcome (list constraint * kstate) :=
  let idx := fold_left (fun n e => (n + n_constrain (snd (snd e)))%nat) (k_map s) 0%nat in
  c <- all_rows (k_map s) ;;
  if dbg && negb (length c =? idx)%nat then Fault AssertFailed else Ok (c, mkK true (k_map s)).
(** DofMap::add_constraint_row with forbid_constraint_overwrite: refuses a dof that is constrained already; the
    rows added before stay *)
Definition constrained (k : nat) (m : list constraint) : bool := existsb (fun c => (fst (fst c) =? k)%nat) m.
Fixpoint add_rows (m : list constraint) (cs : list constraint) : list constraint * option fault :=
  match cs with
  | [] => (m, None)
  | c :: cs => if constrained (fst (fst c)) m then (m, Some LibError) else add_rows (m ++ [c]) cs
  end.
(** add_dof_constraints_to_dof_map, coupling.cpp:83-100 *)
Definition add_to_dof_map (s : kstate) (m : list constraint) : kstate * list constraint * option fault :=
  match get_constraint_rows s with
  | Ok (c, s') => let '(m, e) := add_rows m c in (s', m, e)
  | Fault e => (s, m, Some e)
  end.

(** ** MeshCouplingBase *)
Record side := mkSide { sd_ids : list nat; sd_nodes : list nat }.
Record element := mkEl { el_sub : nat; el_nodes : list nat; el_sides : list side }.
Variable local : list element.                               (* local elements *)
Variable search : R -> nat -> list element.                  (* perform_fuzzy_linear_search at a node *)
Definition mem (k : nat) (l : list nat) : bool := existsb (fun j => (j =? k)%nat) l.
Definition insert (k : nat) (l : list nat) : list nat := if mem k l then l else l ++ [k].
Definition insert_all (ks l : list nat) : list nat := fold_left (fun l k => insert k l) ks l.
(** _check_if_side_on_boundary, mesh_coupling_base.cpp:245-262 *)
Definition on_side (b : nat) (s : side) : bool := fold_left (fun r i => if (i =? b)%nat then true else r) (sd_ids s) false.
(** the masters of a slave node: cpp:95-131 and cpp:195-227 *)
Definition masters_on_boundary (b : nat) (tol : R) (slave : nat) : list nat :=
  fold_left (fun acc e =>
      fold_left (fun acc s => if on_side b s then insert_all (sd_nodes s) acc else acc) (el_sides e) acc)
    (search tol slave) [].
Definition masters_in_subdomain (d : nat) (tol : R) (slave : nat) : list nat :=
  fold_left (fun acc e =>
      if (el_sub e =? d)%nat
      then fold_left (fun acc n => if rleb (dist n slave) tol then insert n acc else acc) (el_nodes e) acc
      else acc)
    (search tol slave) [].
(** the loops over elements, sides and nodes, cpp:49-145 and cpp:149-241: couplings found so far and the slave nodes
    seen in this call *)
Section Scan.
Variable tol : R.
Variable masters : nat -> list nat.
Definition scan_node (cs : outcome (list (nat * list nat) * list nat)) (n : nat) :=
  st <- cs ;;
  let '(l, seen) := st in
  if mem n seen then Ok (l, seen)
  else if dbg && (length (search tol n) =? 0)%nat then Fault AssertFailed
  else Ok (l ++ [(n, masters n)], insert n seen).
Definition scan (slave_b : nat) (l : list (nat * list nat)) : outcome (list (nat * list nat)) :=
  r <- fold_left (fun cs e =>
         fold_left (fun cs s => if on_side slave_b s then fold_left scan_node (sd_nodes s) cs else cs) (el_sides e) cs)
         local (Ok (l, [])) ;;
  Ok (fst r).
End Scan.
Definition couple_boundary (master_b slave_b : nat) (tol : R) (l : list (nat * list nat)) :=
  scan tol (masters_on_boundary master_b tol) slave_b l.
Definition couple_subdomain (master_d slave_b : nat) (tol : R) (l : list (nat * list nat)) :=
  scan tol (masters_in_subdomain master_d tol) slave_b l.
End Nodes.

(** ** StructuralModes, near_null_vector_space.cpp:48-108: the six components at a point *)
Definition th : R := / 100000.
Definition zeros : nat -> R := fun _ => 0.
Definition mode (k : nat) (p : nat -> R) : outcome (nat -> R) :=
  match k with
  | 0%nat | 1%nat | 2%nat => Ok (upd zeros k 1)
  | 3%nat => Ok (upd (upd (upd zeros 3 th) 1 ((cos th * p 1%nat - sin th * p 2%nat) - p 1%nat))
                     2 ((sin th * p 1%nat + cos th * p 2%nat) - p 2%nat))
  | 4%nat => Ok (upd (upd (upd zeros 4 th) 0 ((cos th * p 0%nat + sin th * p 2%nat) - p 0%nat))
                     2 ((- sin th * p 0%nat + cos th * p 2%nat) - p 2%nat))
  | 5%nat => Ok (upd (upd (upd zeros 5 th) 0 ((cos th * p 0%nat - sin th * p 1%nat) - p 0%nat))
                     1 ((sin th * p 0%nat + cos th * p 1%nat) - p 1%nat))
  | _ => Fault LibError
  end.
(** operator(), cpp:140-179: the list handed in must be empty with assertions; otherwise it is cut or extended to
    six entries, which are all written *)
Definition near_null (dbg : bool) (size : nat) (p : nat -> R) : outcome (list (nat -> R)) :=
  if dbg && negb (size =? 0)%nat then Fault AssertFailed else
  fold_left (fun l k => l <- l ;; m <- mode k p ;; Ok (l ++ [m])) (seq 0 6) (Ok []).
