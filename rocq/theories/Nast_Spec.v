(** Specification of the Nastran mesh reader. *)
From Coq Require Import String List Arith NArith Permutation Bool Reals.
From Verif Require Import Base Nast_Model.
Import ListNotations.
Open Scope N_scope.

(** A history of successful reads with one reader. *)
Inductive reads (lt : key -> key -> bool) : list bdf -> io -> mesh -> Prop :=
| reads_none : reads lt [] io0 (mkMesh [] [] [])
| reads_more h i m b i' m' : reads lt h i m -> read_model lt b i = Ok (i', m') -> reads lt (h ++ [b]) i' m'.

(** [e] is the element made from card [c]: same number, the type of its name, and its nodes in order. *)
Definition same_element (i : io) (c : card) (e : melem) : Prop :=
  m_id e = c_eid c /\ find_ key_eqb type_map (c_type c, length (c_nodes c)) = Some (m_type e) /\
  Forall2 (fun n p => find_ N.eqb (n2l i) n = Some p) (c_nodes c) (m_nodes e).
(** [ps] pairs every card of the file with its element. *)
Definition pairing (b : bdf) (i : io) (m : mesh) (ps : list (card * melem)) : Prop :=
  Permutation (map fst ps) (b_cards b) /\ map snd ps = msh_elems m /\ Forall (fun ce => same_element i (fst ce) (snd ce)) ps.
(** Two maps are inverse to each other. *)
Definition inverse_maps (f g : list (N * N)) : Prop :=
  forall a b, find_ N.eqb f a = Some b <-> find_ N.eqb g b = Some a.

(** What a card name stands for, and what a libMesh element type is. *)
Inductive shape := Point | Line | Triangle | Quadrilateral | Tetrahedron | Wedge | Pyramid | Hexahedron.
Open Scope string_scope.
Definition card_shape (name : string) (nodes : nat) : option shape :=
  let starts s := String.prefix s name in
  if starts "CELAS" || starts "CBUSH" then match nodes with 1%nat => Some Point | 2%nat => Some Line | _ => None end
  else if starts "CROD" || starts "CBAR" || starts "CBEAM" then Some Line
  else if starts "CTRIA" then Some Triangle
  else if starts "CQUAD" then Some Quadrilateral
  else if starts "CTETRA" then Some Tetrahedron
  else if starts "CPENTA" then Some Wedge
  else if starts "CPYRAM" then Some Pyramid
  else if starts "CHEXA" then Some Hexahedron
  else None.
Close Scope string_scope.
Definition type_shape (t : etype) : shape * nat :=
  match t with
  | NODEELEM => (Point, 1) | EDGE2 => (Line, 2) | EDGE3 => (Line, 3)
  | TRI3 => (Triangle, 3) | TRI6 => (Triangle, 6)
  | QUAD4 => (Quadrilateral, 4) | QUADSHELL4 => (Quadrilateral, 4) | QUAD8 => (Quadrilateral, 8) | QUAD9 => (Quadrilateral, 9)
  | TET4 => (Tetrahedron, 4) | TET10 => (Tetrahedron, 10)
  | PRISM6 => (Wedge, 6) | PRISM15 => (Wedge, 15) | PYRAMID5 => (Pyramid, 5) | PYRAMID13 => (Pyramid, 13)
  | HEX8 => (Hexahedron, 8) | HEX20 => (Hexahedron, 20)
  end%nat.
