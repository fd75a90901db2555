(** Model of the Nastran mesh reader: /repo/src/mesh/nastran_io.{h,cpp} and the functions of
    /repo/src/mesh/pynastran_io.pyx it calls.
    Ids are natural numbers.  A pointer is a number that is never used twice (an allocator may reuse
    the address of a deleted node; that is not modelled).  Coordinates other than those of the
    zero-length bushings, the materials and the properties are not modelled. *)
From Coq Require Import String List Arith NArith ZArith Lia Bool Reals.
From Verif Require Import Base RBool.
Import ListNotations.
Open Scope N_scope.

(** ** std::map *)
Section Map.
Context {K V : Type} (eqb : K -> K -> bool).
Fixpoint find_ (m : list (K * V)) (k : K) : option V :=
  match m with [] => None | (k', v) :: r => if eqb k k' then Some v else find_ r k end.
Fixpoint upd_ (m : list (K * V)) (k : K) (v : V) : list (K * V) :=
  match m with [] => [(k, v)] | (k', v') :: r => if eqb k k' then (k', v) :: r else (k', v') :: upd_ r k v end.
(** Insertion of a new key, keeping the order [lt] of the keys. *)
Fixpoint ins_ (lt : K -> K -> bool) (m : list (K * V)) (k : K) (v : V) : list (K * V) :=
  match m with
  | [] => [(k, v)]
  | (k', v') :: r => if lt k k' then (k, v) :: (k', v') :: r else (k', v') :: ins_ lt r k v
  end.
End Map.

(** ** The bulk data *)
(** An element card: its type name, ids, and node numbers. *)
Record card := mkCard { c_type : string; c_eid : N; c_pid : N; c_nodes : list N }.
(** The name under which elements are grouped, the type name followed by the number of nodes:
    pynastran_io.pyx L165-167. *)
Definition key := (string * nat)%type.
Definition key_eqb (a b : key) : bool := (String.eqb (fst a) (fst b) && Nat.eqb (snd a) (snd b))%bool.
Definition card_key (c : card) : key := (c_type c, length (c_nodes c)).
(** The SPC cards: for every SPC id the cards with that id, each its type name and its nodes. *)
Record bdf := mkBdf { b_nodes : list N; b_cards : list card; b_spcs : list (N * list (string * list N)) }.

(** getElements, pynastran_io.pyx L123-176: the map from the name to the elements, in file order.
    [lt] is the order of the names; the pre-allocation is not modelled. *)
Definition get_elements (lt : key -> key -> bool) (b : bdf) : list (key * list card) :=
  fold_left (fun m c => match find_ key_eqb m (card_key c) with
                        | Some l => upd_ key_eqb m (card_key c) (l ++ [c])
                        | None => ins_ lt m (card_key c) [c]
                        end)
    (b_cards b) [].

(** getSPCs, pynastran_io.pyx L208-221: one entry for every card, named by the SPC id, the type name
    and the place of the card among those of its id; [slt] is the order of the names. *)
Definition sname := (N * string * nat)%type.
Definition sname_eqb (a b : sname) : bool :=
  ((fst (fst a) =? fst (fst b)) && String.eqb (snd (fst a)) (snd (fst b)) && Nat.eqb (snd a) (snd b))%bool.
Fixpoint number_cards (id : N) (l : list (string * list N)) (i : nat) : list (sname * list N) :=
  match l with [] => [] | (t, ns) :: r => ((id, t, i), ns) :: number_cards id r (S i) end.
Definition get_spcs (slt : sname -> sname -> bool) (b : bdf) : list (sname * list N) :=
  fold_left (fun m (e : sname * list N) => match find_ sname_eqb m (fst e) with
                        | Some _ => upd_ sname_eqb m (fst e) (snd e)
                        | None => ins_ slt m (fst e) (snd e)
                        end)
    (flat_map (fun e : N * list (string * list N) => number_cards (fst e) (snd e) 1) (b_spcs b)) [].

(** libMesh::ElemType *)
Inductive etype := NODEELEM | EDGE2 | EDGE3 | TRI3 | TRI6 | QUAD4 | QUADSHELL4 | QUAD8 | QUAD9
  | TET4 | TET10 | PRISM6 | PRISM15 | PYRAMID5 | PYRAMID13 | HEX8 | HEX20.
Definition etype_eqb (a b : etype) : bool :=
  match a, b with
  | NODEELEM, NODEELEM | EDGE2, EDGE2 | EDGE3, EDGE3 | TRI3, TRI3 | TRI6, TRI6 | QUAD4, QUAD4
  | QUADSHELL4, QUADSHELL4 | QUAD8, QUAD8 | QUAD9, QUAD9 | TET4, TET4 | TET10, TET10 | PRISM6, PRISM6
  | PRISM15, PRISM15 | PYRAMID5, PYRAMID5 | PYRAMID13, PYRAMID13 | HEX8, HEX8 | HEX20, HEX20 => true
  | _, _ => false
  end.
Definition n_nodes (t : etype) : nat :=
  match t with
  | NODEELEM => 1 | EDGE2 => 2 | EDGE3 => 3 | TRI3 => 3 | TRI6 => 6 | QUAD4 => 4 | QUADSHELL4 => 4 | QUAD8 => 8
  | QUAD9 => 9 | TET4 => 4 | TET10 => 10 | PRISM6 => 6 | PRISM15 => 15 | PYRAMID5 => 5 | PYRAMID13 => 13
  | HEX8 => 8 | HEX20 => 20
  end%nat.
(** nastran_io.h L185-216 *)
Open Scope string_scope.
Definition type_map : list (key * etype) :=
  [(("CELAS1", 1%nat), NODEELEM); (("CELAS2", 1%nat), NODEELEM); (("CELAS3", 1%nat), NODEELEM); (("CELAS4", 1%nat), NODEELEM);
   (("CBUSH", 1%nat), NODEELEM); (("CBUSH1D", 1%nat), NODEELEM);
   (("CELAS1", 2%nat), EDGE2); (("CELAS2", 2%nat), EDGE2); (("CELAS3", 2%nat), EDGE2); (("CELAS4", 2%nat), EDGE2);
   (("CBUSH", 2%nat), EDGE2); (("CBUSH1D", 2%nat), EDGE2); (("CBUSH2D", 2%nat), EDGE2);
   (("CROD", 2%nat), EDGE2); (("CBAR", 2%nat), EDGE2); (("CBEAM", 2%nat), EDGE2); (("CBEAM3", 3%nat), EDGE3);
   (("CTRIA3", 3%nat), TRI3); (("CTRIA6", 6%nat), TRI6); (("CTRIAR", 3%nat), TRI3);
   (("CQUAD4", 4%nat), QUAD4); (("CQUAD8", 8%nat), QUAD8); (("CQUADR", 4%nat), QUADSHELL4); (("CQUAD", 4%nat), QUAD4);
   (("CQUAD", 8%nat), QUAD8); (("CQUAD", 9%nat), QUAD9); (("CQUADX", 4%nat), QUAD4); (("CQUADX", 8%nat), QUAD8);
   (("CQUADX", 9%nat), QUAD9);
   (("CTETRA", 4%nat), TET4); (("CTETRA", 10%nat), TET10); (("CPENTA", 6%nat), PRISM6); (("CPENTA", 15%nat), PRISM15);
   (("CPYRAM", 5%nat), PYRAMID5); (("CPYRAM", 13%nat), PYRAMID13); (("CHEXA", 8%nat), HEX8); (("CHEXA", 20%nat), HEX20)].
Close Scope string_scope.

(** ** The mesh and the reader *)
Definition ptr := N.
Record melem := mkElem { m_ptr : ptr; m_id : N; m_type : etype; m_sid : N; m_nodes : list ptr }.
Record mesh := mkMesh { msh_nodes : list (N * ptr); msh_elems : list melem; msh_bnd : list (ptr * N) }.
Definition skey := (N * etype)%type.
Definition skey_eqb (a b : skey) : bool := (fst a =? fst b) && etype_eqb (snd a) (snd b).
(** The maps of the reader, and the next pointer. *)
Record io := mkIo { n2l : list (N * ptr); l2n : list (ptr * N); e2l : list (N * ptr); l2e : list (ptr * N);
                    smap : list (skey * N); fresh : ptr }.
Definition io0 : io := mkIo [] [] [] [] [] 0.
(** Conversion to libMesh::subdomain_id_type, 16 bits. *)
Definition to16 (n : N) : N := n mod 65536.

(** nastran_io.cpp L105-126 read_nodes; add_point with an id in use moves that node. *)
Fixpoint read_nodes (l : list N) (i : io) (m : mesh) : io * mesh :=
  match l with
  | [] => (i, m)
  | nid :: r =>
      let '(p, m', f) :=
        match find_ N.eqb (msh_nodes m) nid with
        | Some p => (p, m, fresh i)
        | None => (fresh i, mkMesh (msh_nodes m ++ [(nid, fresh i)]) (msh_elems m) (msh_bnd m), fresh i + 1)
        end in
      read_nodes r (mkIo (upd_ N.eqb (n2l i) nid p) (upd_ N.eqb (l2n i) p nid) (e2l i) (l2e i) (smap i) f) m'
  end.

(** The node behind a pointer of the map; operator[] of the map makes a null pointer for an unknown
    number, and clear() of the mesh deletes the nodes of earlier reads. *)
Definition node_at (i : io) (m : mesh) (n : N) : outcome ptr :=
  match find_ N.eqb (n2l i) n with
  | None => Fault NullDeref
  | Some p => if existsb (fun e : N * ptr => snd e =? p) (msh_nodes m) then Ok p else Fault UseAfterFree
  end.
(** L183-188: the nodes of an element.  [left] is the number of places left in it. *)
Fixpoint elem_nodes (l : list N) (i : io) (m : mesh) (left : nat) : outcome (list ptr) :=
  match l with
  | [] => Ok []
  | n :: r =>
      p <- node_at i m n ;;
      match left with
      | O => Fault AssertFailed
      | S left' => q <- elem_nodes r i m left' ;; Ok (p :: q)
      end
  end.
(** L154-191: one element.  [z] is the next subdomain number. *)
Definition read_elem (t : etype) (c : card) (z : N) (i : io) (m : mesh) : outcome (N * io * mesh) :=
  let p := fresh i in
  let k := (to16 (c_pid c), t) in
  let '(sm, z') := match find_ skey_eqb (smap i) k with
                   | None => (upd_ skey_eqb (smap i) k z, z + 1)
                   | Some _ => (smap i, z)
                   end in
  let sid := match find_ skey_eqb sm k with Some s => to16 s | None => 0 end in
  let i' := mkIo (n2l i) (l2n i) (upd_ N.eqb (e2l i) (c_eid c) p) (upd_ N.eqb (l2e i) p (c_eid c)) sm (p + 1) in
  ns <- elem_nodes (c_nodes c) i' m (n_nodes t) ;;
  Ok (z', i', mkMesh (msh_nodes m) (msh_elems m ++ [mkElem p (c_eid c) t sid ns]) (msh_bnd m)).
Fixpoint read_group (t : etype) (l : list card) (z : N) (i : io) (m : mesh) : outcome (N * io * mesh) :=
  match l with
  | [] => Ok (z, i, m)
  | c :: r => x <- read_elem t c z i m ;; read_group t r (fst (fst x)) (snd (fst x)) (snd x)
  end.
(** L128-194 read_elements; [z] starts at 1. *)
Fixpoint read_groups (g : list (key * list card)) (z : N) (i : io) (m : mesh) : outcome (io * mesh) :=
  match g with
  | [] => Ok (i, m)
  | (k, l) :: r =>
      match find_ key_eqb type_map k with
      | None => Fault LibError
      | Some t => x <- read_group t l z i m ;; read_groups r (fst (fst x)) (snd (fst x)) (snd x)
      end
  end.
(** L197-214 read_node_boundaries.  The SPC cards come in the order of their names. *)
Fixpoint add_nodes (l : list N) (j : N) (i : io) (m : mesh) (b : list (ptr * N)) : outcome (list (ptr * N)) :=
  match l with
  | [] => Ok b
  | n :: r => p <- node_at i m n ;; add_nodes r j i m (b ++ [(p, j)])
  end.
Fixpoint add_spcs (l : list (list N)) (j : N) (i : io) (m : mesh) (b : list (ptr * N)) : outcome (list (ptr * N)) :=
  match l with
  | [] => Ok b
  | s :: r => b' <- add_nodes s j i m b ;; add_spcs r (j + 1) i m b'
  end.
(** L245-261 read(BDFModel* model) *)
Definition read_model (lt : key -> key -> bool) (b : bdf) (i : io) : outcome (io * mesh) :=
  let '(i1, m1) := read_nodes (b_nodes b) i (mkMesh [] [] []) in
  read_groups (get_elements lt b) 1 i1 m1.
(** L217-240 read(filename) *)
Definition read_file (lt : key -> key -> bool) (slt : sname -> sname -> bool) (b : bdf) (i : io) : outcome (io * mesh) :=
  x <- read_model lt b i ;;
  bd <- add_spcs (map snd (get_spcs slt b)) 1 (fst x) (snd x) [] ;;
  Ok (fst x, mkMesh (msh_nodes (snd x)) (msh_elems (snd x)) bd).

(** ** Tables *)
(** L86-97 get_nastran_property_to_libmesh_subdomains_map *)
Definition prop_map (i : io) : list (N * list N) :=
  fold_left (fun m (e : skey * N) => upd_ N.eqb m (fst (fst e)) ((match find_ N.eqb m (fst (fst e)) with Some l => l | None => [] end) ++ [snd e]))
    (smap i) [].
(** L292-306 print_pid_to_subdomain_id_map: the rows of the table; the string for the ids is not
    emptied between rows. *)
Fixpoint print_rows (l : list (N * list N)) (s : list N) : list (N * list N) :=
  match l with [] => [] | (p, ids) :: r => (p, s ++ ids) :: print_rows r (s ++ ids) end.
Definition print_table (i : io) : list (N * list N) := print_rows (prop_map i) [].

(** ** Zero-length bushings *)
Open Scope R_scope.
(** pynastran_io.pyx L223-262, the change of the second node for the x-axis (i0, i1, i2) of the
    coordinate system; a division by zero gives an infinite factor and coordinates that are not numbers. *)
Definition bush_eps : R := IZR 14901161193847656 / IZR 1000000000000000000000000.
Definition min3 (a b c : R) : R := Rmin a (Rmin b c).
Definition bush_shift (i0 i1 i2 : R) : outcome (R * R * R) :=
  let d0 := bush_eps * i0 in let d1 := bush_eps * i1 in let d2 := bush_eps * i2 in
  let mn := min3 (Rabs d0) (Rabs d1) (Rabs d2) in
  if rltb mn bush_eps then
    if reqb mn 0 then Fault DivByZero
    else Ok (d0 * (bush_eps / mn), d1 * (bush_eps / mn), d2 * (bush_eps / mn))
  else Ok (d0, d1, d2).
