(** Model of MAST::PhysicsDisciplineBase, /repo/src/base/physics_discipline_base.{h,cpp}.
    Loads, point loads and property cards are identified by their address (nat).
    [debug = true] is a build in which libmesh_assert is active. *)
From Coq Require Import List Arith Bool.
From Verif Require Import Base.
Import ListNotations.

(** std::multimap<id, load*>: entries in map order restricted to a key are in insertion order, which is
    all that can be observed per id; the list keeps insertion order over all ids.  h:56-60 *)
Definition mmap : Type := list (nat * nat).
(** the loads reported for an id: equal_range(id) *)
Definition loads_of (m : mmap) (id : nat) : list nat :=
  map snd (filter (fun e => fst e =? id) m).

Definition has (m : mmap) (id load : nat) : bool :=
  existsb (fun e => (fst e =? id) && (snd e =? load)) m.

(** erase the first entry (id, load): cpp:62-74, 125-137, 153-166 *)
Fixpoint erase_first (m : mmap) (id load : nat) : mmap :=
  match m with
  | [] => []
  | e :: t => if (fst e =? id) && (snd e =? load) then t else e :: erase_first t id load
  end.

Record disc : Type := mkDisc {
  side : mmap;                       (* _side_bc_map *)
  vol : mmap;                        (* _vol_bc_map *)
  points : list nat;                 (* _point_loads, a std::set *)
  cards : list (nat * nat);          (* _element_property: newest entry for a key first *)
  dirichlet : list (nat * nat) }.    (* _dirichlet_bc_map: oldest entry for a key wins *)
Definition disc0 : disc := mkDisc [] [] [] [] [].

Definition assoc (l : list (nat * nat)) (k : nat) : option nat :=
  match find (fun e => fst e =? k) l with Some e => Some (snd e) | None => None end.

Inductive dop : Type :=
| AddSide (id load : nat) | RemoveSide (id load : nat)
| AddVol (id load : nat) | RemoveVol (id load : nat) | ClearVol (id load : nat)
| AddPoint (load : nat) | ClearLoads
| SetCard (sid card : nat) | AddDirichlet (id bc : nat).

Definition when_debug {A} (debug b : bool) (k : outcome A) : outcome A :=
  if debug then assert_ b k else k.

Definition dstep (debug : bool) (d : disc) (o : dop) : outcome disc :=
  match o with
  (* cpp:46-57 *)
  | AddSide id l => when_debug debug (negb (has (side d) id l))
      (Ok (mkDisc (side d ++ [(id, l)]) (vol d) (points d) (cards d) (dirichlet d)))
  (* cpp:62-74 *)
  | RemoveSide id l =>
      Ok (mkDisc (erase_first (side d) id l) (vol d) (points d) (cards d) (dirichlet d))
  (* cpp:112-121 *)
  | AddVol id l => when_debug debug (negb (has (vol d) id l))
      (Ok (mkDisc (side d) (vol d ++ [(id, l)]) (points d) (cards d) (dirichlet d)))
  (* cpp:124-137 *)
  | RemoveVol id l =>
      Ok (mkDisc (side d) (erase_first (vol d) id l) (points d) (cards d) (dirichlet d))
  (* cpp:152-166: assert(false) when the load is not there *)
  | ClearVol id l => when_debug debug (has (vol d) id l)
      (Ok (mkDisc (side d) (erase_first (vol d) id l) (points d) (cards d) (dirichlet d)))
  (* cpp:142-148, std::set::insert *)
  | AddPoint l => when_debug debug (negb (existsb (Nat.eqb l) (points d)))
      (Ok (mkDisc (side d) (vol d) (if existsb (Nat.eqb l) (points d) then points d else l :: points d)
             (cards d) (dirichlet d)))
  (* cpp:37-41 *)
  | ClearLoads => Ok (mkDisc [] [] (points d) (cards d) (dirichlet d))
  (* cpp:170-179, operator[] overwrites *)
  | SetCard s c =>
      when_debug debug (match assoc (cards d) s with None => true | Some _ => false end)
      (Ok (mkDisc (side d) (vol d) (points d) ((s, c) :: cards d) (dirichlet d)))
  (* cpp:80-88, std::map::insert does not overwrite *)
  | AddDirichlet id b =>
      when_debug debug (match assoc (dirichlet d) id with None => true | Some _ => false end)
      (Ok (mkDisc (side d) (vol d) (points d) (cards d) (dirichlet d ++ [(id, b)])))
  end.

Fixpoint drun (debug : bool) (d : disc) (ops : list dop) : outcome disc :=
  match ops with [] => Ok d | o :: t => d' <- dstep debug d o ;; drun debug d' t end.

(** get_property_card, cpp:183-214, the three overloads take the id from a number, from the element, or
    from the element's reference element.  Without the assertion the end() iterator is dereferenced. *)
Definition get_property_card (debug : bool) (d : disc) (sid : nat) : outcome nat :=
  match assoc (cards d) sid with
  | Some c => Ok c
  | None => if debug then Fault AssertFailed else Fault OutOfBounds
  end.

(** ** Constrained dofs, cpp:249-363 *)
(** One side of an element: has a neighbour?, the boundary ids on it, and the local dof numbers that
    libMesh::FEInterface::dofs_on_side returns for the FE type *of variable 0* on that side. *)
Record eside : Type := mkSide { neighbor : bool; bids : list nat; side_dofs0 : list nat }.
Record elem : Type := mkElem {
  subdomain : nat;
  dof_indices : nat -> list nat;       (* dof_map.dof_indices(elem, ., var) *)
  sides : list eside }.

(** dof_ids.insert(dof_indices[k]) for k in side_dofs: an index outside dof_indices is an
    out-of-bounds read (cpp:335-346) *)
Fixpoint insert_side (di ks : list nat) (acc : list nat) : outcome (list nat) :=
  match ks with
  | [] => Ok acc
  | k :: t => match nth_error di k with
              | Some d => insert_side di t (d :: acc)
              | None => Fault OutOfBounds
              end
  end.
Fixpoint fold_ {A S} (f : S -> A -> outcome S) (l : list A) (s : S) : outcome S :=
  match l with [] => Ok s | x :: t => s' <- f s x ;; fold_ f t s' end.

(** [bc id] = variables constrained on boundary id (constrained_vars_map), [sub id] = variables
    constrained on the subdomain (_subdomain_var_constraint), [rows] = dofs with an empty constraint row *)
Definition side_step (bc : nat -> option (list nat)) (e : elem) (acc : list nat) (s : eside)
  : outcome (list nat) :=
  if negb (neighbor s) then
    fold_ (fun acc b =>
      match bc b with
      | None => Ok acc
      | Some vars => fold_ (fun acc v => insert_side (dof_indices e v) (side_dofs0 s) acc) vars acc
      end) (bids s) acc
  else Ok acc.
Definition elem_step (bc : nat -> option (list nat)) (sub : nat -> list nat) (acc : list nat) (e : elem)
  : outcome (list nat) :=
  let acc := fold_left (fun a v => dof_indices e v ++ a) (sub (subdomain e)) acc in
  fold_ (side_step bc e) (sides e) acc.
Definition dirichlet_dofs (bc : nat -> option (list nat)) (sub : nat -> list nat)
    (elems : list elem) (rows : list (nat * nat)) : outcome (list nat) :=
  acc <- fold_ (elem_step bc sub) elems [] ;;
  (* cpp:352-362: rows = (dof, number of entries of its constraint row) *)
  Ok (map fst (filter (fun r => snd r =? 0) rows) ++ acc).
