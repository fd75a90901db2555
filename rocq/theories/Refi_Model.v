(** Model of the sub-element mesh refinement,
    /repo/src/level_set/sub_elem_mesh_refinement.cpp and sub_elem_node_map.cpp.
    Pointers are natural numbers; [ms_fresh] is the next address handed out by the allocator, so
    addresses of deleted objects are not used again.  Neighbour links, processor ids, refinement
    flags and extra integers of elements are not modelled. *)
From Coq Require Import List Arith NArith ZArith Lia Bool Reals.
From Verif Require Import Base RBool Filt_Model Isec_Model.
Import ListNotations.
Open Scope nat_scope.

(** ** The libMesh mesh *)
Inductive ctype := TQuad4 | TQuad9 | TTri3 | TOther.
Definition ctype_eqb (a b : ctype) : bool :=
  match a, b with TQuad4, TQuad4 | TQuad9, TQuad9 | TTri3, TTri3 | TOther, TOther => true | _, _ => false end.
Record node := mkNode { nd_ptr : nat; nd_id : N; nd_pt : pt }.
Record cell := mkCell { ce_ptr : nat; ce_type : ctype; ce_conn : list nat; ce_id : N; ce_sub : N }.
(** [ms_sides]: element, side, boundary id. *)
Record mesh := mkMesh { ms_nodes : list node; ms_cells : list cell; ms_sides : list (nat * nat * N); ms_fresh : nat }.

(** max_node_id() and max_elem_id(): one more than the largest id in use. *)
Definition max_node_id (m : mesh) : N := fold_right (fun n a => N.max (nd_id n + 1) a) 0%N (ms_nodes m).
Definition max_elem_id (m : mesh) : N := fold_right (fun c a => N.max (ce_id c + 1) a) 0%N (ms_cells m).
Definition find_node (m : mesh) (p : nat) : option node := find (fun n => nd_ptr n =? p) (ms_nodes m).
Definition find_cell (m : mesh) (p : nat) : option cell := find (fun c => ce_ptr c =? p) (ms_cells m).
(** MeshBase::add_point with an invalid id. *)
Definition add_point (m : mesh) (x : pt) : nat * mesh :=
  (ms_fresh m, mkMesh (ms_nodes m ++ [mkNode (ms_fresh m) (max_node_id m) x]) (ms_cells m) (ms_sides m) (S (ms_fresh m))).
(** Elem::build followed by MeshBase::add_elem. *)
Definition add_elem (m : mesh) (t : ctype) (conn : list nat) (s : N) : nat * mesh :=
  (ms_fresh m, mkMesh (ms_nodes m) (ms_cells m ++ [mkCell (ms_fresh m) t conn (max_elem_id m) s]) (ms_sides m) (S (ms_fresh m))).
(** BoundaryInfo::add_side *)
Definition add_side (m : mesh) (c k : nat) (b : N) : mesh :=
  mkMesh (ms_nodes m) (ms_cells m) (ms_sides m ++ [(c, k, b)]) (ms_fresh m).
(** Elem::subdomain_id() = s *)
Definition set_sub (m : mesh) (p : nat) (s : N) : mesh :=
  mkMesh (ms_nodes m)
    (map (fun c => if ce_ptr c =? p then mkCell (ce_ptr c) (ce_type c) (ce_conn c) (ce_id c) s else c) (ms_cells m))
    (ms_sides m) (ms_fresh m).
(** BoundaryInfo::remove(elem) and MeshBase::delete_elem *)
Definition del_elem (m : mesh) (p : nat) : mesh :=
  mkMesh (ms_nodes m) (filter (fun c => negb (ce_ptr c =? p)) (ms_cells m))
    (filter (fun s => negb (fst (fst s) =? p)) (ms_sides m)) (ms_fresh m).
(** MeshBase::delete_node *)
Definition del_node (m : mesh) (p : nat) : mesh :=
  mkMesh (filter (fun n => negb (nd_ptr n =? p)) (ms_nodes m)) (ms_cells m) (ms_sides m) (ms_fresh m).
(** subdomain_id_type has 16 bits. *)
Definition sub16 (s : N) : N := N.modulo s (2 ^ 16).

(** The element handed to the intersection. *)
Definition npt (m : mesh) (p : nat) : pt := match find_node m p with Some n => nd_pt n | None => (0, 0, 0)%R end.
Definition cell_elem (m : mesh) (c : cell) : elem :=
  mkElem (match ce_type c with TQuad4 => QUAD4 | TQuad9 => QUAD9 | _ => OTHER end)
    (fun k => match nth_error (ce_conn c) k with Some p => npt m p | None => (0, 0, 0)%R end) (ce_id c) (ce_sub c).

(** ** The refinement object *)
Definition key := (N * N)%type.
Definition entry := (option nat * option nat)%type.
Record refi := mkRefi {
  rf_init : bool; rf_strong : bool;
  rf_map : list (key * entry);              (* _node_map *)
  rf_neg_ids : list N;                      (* _negative_level_set_ids *)
  rf_new_nodes : list nat; rf_new_elems : list nat;
  rf_old : list (nat * N);                  (* _old_elems *)
  rf_hang : list (nat * (nat * nat)) }.     (* _hanging_node: a std::set ordered by address in the code; here a list in order of insertion, with repetitions *)
(** L34-46 *)
Definition refi0 : refi := mkRefi false false [] [] [] [] [] [].
Definition with_map f r := mkRefi (rf_init r) (rf_strong r) (f (rf_map r)) (rf_neg_ids r) (rf_new_nodes r) (rf_new_elems r) (rf_old r) (rf_hang r).
Definition with_node p r := mkRefi (rf_init r) (rf_strong r) (rf_map r) (rf_neg_ids r) (rf_new_nodes r ++ [p]) (rf_new_elems r) (rf_old r) (rf_hang r).
Definition with_elem p r := mkRefi (rf_init r) (rf_strong r) (rf_map r) (rf_neg_ids r) (rf_new_nodes r) (rf_new_elems r ++ [p]) (rf_old r) (rf_hang r).
Definition with_neg s r := mkRefi (rf_init r) (rf_strong r) (rf_map r) (s :: rf_neg_ids r) (rf_new_nodes r) (rf_new_elems r) (rf_old r) (rf_hang r).
Definition with_old x r := mkRefi (rf_init r) (rf_strong r) (rf_map r) (rf_neg_ids r) (rf_new_nodes r) (rf_new_elems r) (rf_old r ++ [x]) (rf_hang r).
Definition with_hang x r := mkRefi (rf_init r) (rf_strong r) (rf_map r) (rf_neg_ids r) (rf_new_nodes r) (rf_new_elems r) (rf_old r) (rf_hang r ++ [x]).
Definition with_done st r := mkRefi true st (rf_map r) (rf_neg_ids r) (rf_new_nodes r) (rf_new_elems r) (rf_old r) (rf_hang r).

(** SubElemNodeMap::add: the entry of the key, created empty when there is none. *)
Definition key_eqb (a b : key) : bool := (fst a =? fst b)%N && (snd a =? snd b)%N.
Fixpoint lookup (l : list (key * entry)) (k : key) : entry :=
  match l with [] => (None, None) | (k', e) :: t => if key_eqb k k' then e else lookup t k end.
(** Writing through the returned reference. *)
Fixpoint store (k : key) (e : entry) (l : list (key * entry)) : list (key * entry) :=
  match l with
  | [] => [(k, e)]
  | (k', e') :: t => if key_eqb k k' then (k', e) :: t else (k', e') :: store k e t
  end.

(** L649-726 _add_node.  [b1], [b2] are the bounding nodes. *)
Definition state := (refi * mesh)%type.
Definition add_node (x : pt) (strong pos : bool) (b1 b2 : nat) (s : state) : outcome (nat * state) :=
  let '(r, m) := s in
  assert_ (negb (rf_init r))
  match find_node m b1, find_node m b2 with
  | Some n1, Some n2 =>
      let k := (N.min (nd_id n1) (nd_id n2), N.max (nd_id n1) (nd_id n2)) in
      let e := lookup (rf_map r) k in
      let made q := let '(p, m') := add_point m x in Ok (p, (with_node p (with_map (store k (q p)) r), m')) in
      if negb strong then
        match fst e with
        | Some p => assert_ (match snd e with Some q => p =? q | None => false end) (Ok (p, s))
        | None => made (fun p => (Some p, Some p))
        end
      else if pos then
        match fst e with Some p => Ok (p, s) | None => made (fun p => (Some p, snd e)) end
      else
        match snd e with Some p => Ok (p, s) | None => made (fun p => (fst e, Some p)) end
  | _, _ => Fault NullDeref
  end.

(** Arguments of process_mesh. *)
Record args := mkArgs { a_phi : pt -> R; a_strong : bool; a_neg : N; a_in : N; a_bid : N }.

(** L437-485: the nodes of the child. *)
Fixpoint child_nodes (a : args) (c : cell) (r : result) (pos : bool) (vs : list vertex) (s : state)
  : outcome (list nat * state) :=
  match vs with
  | [] => Ok ([], s)
  | Old k :: t =>
      match nth_error (ce_conn c) k with
      | None => Fault OutOfBounds
      | Some p => y <- child_nodes a c r pos t s ;; Ok (p :: fst y, snd y)
      end
  | Made j :: t =>
      match nth_error (r_made r) j with
      | None => Fault OutOfBounds
      | Some nd =>
          match nth_error (ce_conn c) (fst (m_bound nd)), nth_error (ce_conn c) (snd (m_bound nd)) with
          | Some b1, Some b2 =>
              x <- add_node (m_pt nd) (a_strong a) pos b1 b2 s ;;
              let s1 := if m_hang nd then (with_hang (fst x, (b1, b2)) (fst (snd x)), snd (snd x)) else snd x in
              y <- child_nodes a c r pos t s1 ;; Ok (fst x :: fst y, snd y)
          | _, _ => Fault OutOfBounds
          end
      end
  end.
Definition child_type (s : sub) : ctype := match length (s_vert s) with 3 => TTri3 | 4 => TQuad4 | _ => TOther end.
(** L500-512 *)
Definition child_sub (a : args) (c : cell) (t : ctype) (pos : bool) : N :=
  let base := if ctype_eqb t (ce_type c) then ce_sub c else sub16 (ce_sub c + 1) in
  if pos then base else sub16 (base + a_neg a).
(** L405-526 _process_sub_elements.  [l] lists sub-elements of the intersection.  The parent itself
    ([None]) is skipped on the positive side; on the negative side it is not expected here (the
    callers pass the lists of a cut element) and ends in an error value.  _interior_nodes of the
    intersection is never filled, so L528-560 have nothing to do. *)
Fixpoint process_subs (a : args) (c : cell) (r : result) (pos : bool) (l : list (option nat)) (s : state) : outcome state :=
  match l with
  | [] => Ok s
  | None :: t => if pos then process_subs a c r pos t s else Fault LibError
  | Some j :: t =>
      match nth_error (r_subs r) j with
      | None => Fault OutOfBounds
      | Some sb =>
          x <- child_nodes a c r pos (s_vert sb) s ;;
          let ty := child_type sb in
          let sd := child_sub a c ty pos in
          let r1 := if pos then fst (snd x) else with_neg sd (fst (snd x)) in
          let '(p, m1) := add_elem (snd (snd x)) ty (fst x) sd in
          let m2 := if (0 <=? s_side sb)%Z then add_side m1 p (Z.to_nat (s_side sb)) (a_bid a) else m1 in
          process_subs a c r pos t (with_elem p r1, m2)
      end
  end.

(** L566-644 _process_negative_element *)
Definition side_nodes (c : cell) (r : result) : outcome (list nat) :=
  match r_mode r with
  | THROUGH_NODE => Ok [nth (r_node r) (ce_conn c) 0]
  | COLINEAR_EDGE =>
      let i := r_edge r in
      Ok (nth i (ce_conn c) 0 :: nth ((i + 1) mod 4) (ce_conn c) 0 ::
          match ce_type c with TQuad9 => [nth (i + 4) (ce_conn c) 0] | _ => [] end)
  | _ => Fault AssertFailed
  end.
Fixpoint copy_nodes (sn : list nat) (conn : list nat) (s : state) : outcome (list nat * state) :=
  match conn with
  | [] => Ok ([], s)
  | p :: t =>
      if existsb (Nat.eqb p) sn then
        x <- add_node (npt (snd s) p) true false p p s ;;
        y <- copy_nodes sn t (snd x) ;; Ok (fst x :: fst y, snd y)
      else y <- copy_nodes sn t s ;; Ok (p :: fst y, snd y)
  end.
Definition process_negative (a : args) (c : cell) (r : result) (s : state) : outcome state :=
  sn <- side_nodes c r ;;
  y <- copy_nodes sn (ce_conn c) s ;;
  let sd := sub16 (ce_sub c + a_neg a) in
  let '(p, m1) := add_elem (snd (snd y)) (ce_type c) (fst y) sd in
  Ok (with_elem p (with_neg sd (fst (snd y))), m1).

(** _old_elems.push_back; subdomain_id() += offset *)
Definition retire (c : cell) (off : N) (s : state) : state :=
  (with_old (ce_ptr c, ce_sub c) (fst s), set_sub (snd s) (ce_ptr c) (sub16 (ce_sub c + off))).

Definition touches (r : result) : bool :=
  match r_mode r with COLINEAR_EDGE | THROUGH_NODE => length (r_neg r) =? 1 | _ => false end.
(** L100-114 *)
Definition selected (r : result) : bool := through (r_mode r) || touches r || r_onneg r.

(** L100-117: the elements to be processed. *)
Fixpoint select (a : args) (m : mesh) (l : list cell) : outcome (list nat) :=
  match l with
  | [] => Ok []
  | c :: t =>
      r <- init (a_phi a) (cell_elem m c) (max_elem_id m) (max_node_id m) ;;
      y <- select a m t ;;
      Ok (if selected r then ce_ptr c :: y else y)
  end.
(** L125-181: one element.  The boolean is mesh_changed. *)
Definition process_cell (a : args) (p : nat) (s : state * bool) : outcome (state * bool) :=
  match find_cell (snd (fst s)) p with
  | None => Fault UseAfterFree
  | Some c =>
      let m := snd (fst s) in
      r <- init (a_phi a) (cell_elem m c) (max_elem_id m) (max_node_id m) ;;
      if through (r_mode r) then
        s1 <- process_subs a c r true (r_pos r) (fst s) ;;
        s2 <- process_subs a c r false (r_neg r) s1 ;;
        Ok (retire c (a_in a) s2, true)
      else if touches r then
        if a_strong a then
          s1 <- process_negative a c r (fst s) ;; Ok (retire c (a_in a) s1, snd s)
        else Ok (retire c (a_neg a) (fst s), snd s)
      else if r_onneg r then Ok (retire c (a_neg a) (fst s), snd s)
      else Ok s
  end.
Fixpoint process_cells (a : args) (l : list nat) (s : state * bool) : outcome (state * bool) :=
  match l with
  | [] => Ok s
  | p :: t => s1 <- process_cell a p s ;; process_cells a t s1
  end.

(** L58-216 process_mesh on one processor (communicator maxima are the identity, the mesh is
    replicated).  [prep] is prepare_for_use of libMesh.  set_node_processor_ids and
    update_parallel_id_counts do not concern the data modelled. *)
Definition process_mesh (prep : mesh -> mesh) (a : args) (s : state) : outcome (state * bool) :=
  assert_ (negb (rf_init (fst s)))
  (l <- select a (snd s) (ms_cells (snd s)) ;;
   y <- process_cells a l (s, false) ;;
   let m := if snd y then prep (snd (fst y)) else snd (fst y) in
   Ok ((with_done (a_strong a) (fst (fst y)), m), snd y)).

(** L220-281 clear_mesh.  Writing to or deleting an object that is no longer in the mesh is an
    error value. *)
Fixpoint restore (l : list (nat * N)) (m : mesh) : outcome mesh :=
  match l with
  | [] => Ok m
  | (p, s) :: t => match find_cell m p with None => Fault UseAfterFree | Some _ => restore t (set_sub m p (sub16 s)) end
  end.
Fixpoint del_elems (l : list nat) (m : mesh) : outcome mesh :=
  match l with
  | [] => Ok m
  | p :: t => match find_cell m p with None => Fault DoubleFree | Some _ => del_elems t (del_elem m p) end
  end.
Fixpoint del_nodes (l : list nat) (m : mesh) : outcome mesh :=
  match l with
  | [] => Ok m
  | p :: t => match find_node m p with None => Fault DoubleFree | Some _ => del_nodes t (del_node m p) end
  end.
Definition clear_mesh (prep : mesh -> mesh) (s : state) : outcome (state * bool) :=
  let '(r, m) := s in
  m1 <- restore (rf_old r) m ;;
  m2 <- del_elems (rf_new_elems r) m1 ;;
  m3 <- del_nodes (rf_new_nodes r) m2 ;;
  let changed := negb ((length (rf_new_elems r) =? 0) && (length (rf_new_nodes r) =? 0)) in
  let r' := if changed then mkRefi false false [] [] [] [] [] []
            else mkRefi false false (rf_map r) [] (rf_new_nodes r) (rf_new_elems r) [] [] in
  Ok ((r', if changed then prep m3 else m3), changed).

(** ** L286-400 constrain *)
(** The dof map of libMesh: dofs of an element, dofs of a node for a variable, number of variables,
    range of the rank, local active elements; [dm_rows] are the constraints present. *)
Definition row := list (nat * R).
Record dofmap := mkDof {
  dm_elem : cell -> list nat; dm_node : nat -> nat -> list nat; dm_vars : nat;
  dm_first : nat; dm_last : nat; dm_local : cell -> bool }.
Definition is_constrained (rows : list (nat * row)) (d : nat) : bool := existsb (fun x => fst x =? d) rows.
(** The test as written: ||. *)
Definition owned_test (d : dofmap) (i : nat) : bool := (dm_first d <=? i) || (i <? dm_last d).
Definition zero_row (d : dofmap) (rows : list (nat * row)) (i : nat) : list (nat * row) :=
  if owned_test d i && negb (is_constrained rows i) then rows ++ [(i, [])] else rows.
(** L302-327 *)
Definition zero_cell (d : dofmap) (neg : list N) (rows : list (nat * row)) (c : cell) : list (nat * row) :=
  if dm_local d c && existsb (N.eqb (ce_sub c)) neg then fold_left (zero_row d) (dm_elem d c) rows else rows.
(** L352-360: fraction of the node from the first bounding node *)
Definition frac (m : mesh) (h : nat * (nat * nat)) : R :=
  (dist (npt m (fst h)) (npt m (fst (snd h))) / dist (npt m (snd (snd h))) (npt m (fst (snd h))))%R.
(** c_row[i] = v on a std::map: the second write to the same dof replaces the first. *)
Definition put (i : nat) (v : R) (w : row) : row := filter (fun x => negb (fst x =? i)) w ++ [(i, v)].
(** L365-398 *)
Definition hang_var (d : dofmap) (m : mesh) (h : nat * (nat * nat)) (rows : list (nat * row)) (v : nat) : outcome (list (nat * row)) :=
  match dm_node d (fst h) v, dm_node d (fst (snd h)) v, dm_node d (snd (snd h)) v with
  | [dn], [d1], [d2] =>
      Ok (if owned_test d dn && negb (is_constrained rows dn)
          then rows ++ [(dn, put d2 (frac m h) (put d1 (1 - frac m h)%R []))] else rows)
  | _, _, _ => Fault AssertFailed
  end.
Fixpoint hang_vars (d : dofmap) (m : mesh) (h : nat * (nat * nat)) (vs : list nat) (rows : list (nat * row)) : outcome (list (nat * row)) :=
  match vs with
  | [] => Ok rows
  | v :: t => x <- hang_var d m h rows v ;; hang_vars d m h t x
  end.
Fixpoint hang_all (d : dofmap) (m : mesh) (hs : list (nat * (nat * nat))) (rows : list (nat * row)) : outcome (list (nat * row)) :=
  match hs with
  | [] => Ok rows
  | h :: t => x <- hang_vars d m h (seq 0 (dm_vars d)) rows ;; hang_all d m t x
  end.
Definition constrain (d : dofmap) (s : state) (rows : list (nat * row)) : outcome (list (nat * row)) :=
  let '(r, m) := s in
  if negb (rf_init r) || negb (rf_strong r) then Ok rows
  else hang_all d m (rf_hang r) (fold_left (zero_cell d (rf_neg_ids r)) (ms_cells m) rows).
