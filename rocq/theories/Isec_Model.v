(** Model of the level-set intersection of one element,
    /repo/src/level_set/level_set_intersection.cpp. *)
From Coq Require Import List Arith NArith ZArith Lia Bool Reals.
From Verif Require Import Base RBool Filt_Model.
Import ListNotations.
Open Scope nat_scope.

(** L31-46 (and L204-205): the constants set by the constructor; no function changes them. *)
Definition tol : R := (/ 10 ^ 8)%R.
Definition max_iters : nat := 10.
Definition max_elem_divs : N := 4%N.

(** level_set_intersection.h: enum LevelSet2DIntersectionMode *)
Inductive mode := NO_INTERSECTION | THROUGH_NODE | COLINEAR_EDGE | ADJACENT_EDGES | OPPOSITE_EDGES
  | OPPOSITE_NODES | NODE_AND_EDGE | NODE_AND_TWO_EDGES | TWO_ADJACENT_EDGES.

(** libMesh element: type, node positions (0..3 are the corners), id, subdomain id. *)
Inductive etype := QUAD4 | QUAD9 | OTHER.
Record elem := mkElem { e_type : etype; e_pt : nat -> pt; e_id : N; e_sub : N }.
Definition n_nodes (e : elem) : nat := match e_type e with QUAD9 => 9 | _ => 4 end.

(** Point arithmetic of libMesh::Point. *)
Definition padd (a b : pt) : pt :=
  match a, b with (x, y, z), (x', y', z') => (x + x', y + y', z + z')%R end.
Definition psub (a b : pt) : pt :=
  match a, b with (x, y, z), (x', y', z') => (x - x', y - y', z - z')%R end.
Definition pscale (s : R) (a : pt) : pt :=
  match a with (x, y, z) => (s * x, s * y, s * z)%R end.

(** A vertex of a sub-element: a node of the parent or a node made for the intersection. *)
Inductive vertex := Old (k : nat) | Made (j : nat).

(** A node made for the intersection: id, position, the parent nodes bounding it
    (_bounding_nodes), its reference coordinates (_node_local_coords) and whether it is in
    _hanging_node. *)
Record made := mkMade { m_id : N; m_pt : pt; m_bound : nat * nat; m_loc : pt; m_hang : bool }.

(** A sub-element: vertices and side on the interface (-1: none). *)
Record sub := mkSub { s_vert : list vertex; s_side : Z }.

(** What the object holds after init.  [r_pos]/[r_neg] are _positive_phi_elems and
    _negative_phi_elems: [None] is the parent element, [Some k] is _new_elems[k]. *)
Record result := mkRes {
  r_mode : mode; r_onpos : bool; r_onneg : bool;
  r_pos : list (option nat); r_neg : list (option nat);
  r_subs : list sub; r_ids : list N; r_subdom : list N; r_made : list made;
  r_node : nat; r_edge : nat }.

(** L341-359: extremes over all nodes of the element, number of corners on the level set, last of
    them. *)
Record scan := mkScan { sc_min : R; sc_max : R; sc_n : nat; sc_last : nat }.
Definition on_ls (v : R) : bool := rleb (Rabs v) tol.
Definition scan_node (v : nat -> R) (s : scan) (i : nat) : scan :=
  let c := (i <? 4) && on_ls (v i) in
  mkScan (if rltb (v i) (sc_min s) then v i else sc_min s)
         (if rltb (sc_max s) (v i) then v i else sc_max s)
         (if c then S (sc_n s) else sc_n s) (if c then i else sc_last s).
Definition scan_nodes (v : nat -> R) (n : nat) : scan :=
  fold_left (scan_node v) (seq 0 n) (mkScan (10 ^ 12)%R (- 10 ^ 12)%R 0 0).

(** L1586-1645.  The loop; [a], [b] are the current ends, [va], [vb] the values there. *)
Fixpoint edge_loop (phi : pt -> R) (fuel : nat) (v va vb : R) (pp a b : pt) : pt :=
  match fuel with
  | 0 => pp
  | S k =>
      if rltb tol (Rabs v) then
        let xi := (- va / (vb - va))%R in
        let q := padd a (pscale xi (psub b a)) in
        let w := phi q in
        if rltb (w * vb)%R 0%R then edge_loop phi k w w vb q q b
        else edge_loop phi k w va w q a q
      else pp
  end.
Definition edge_xi (phi : pt -> R) (p0 p1 : pt) : R :=
  let q := edge_loop phi max_iters (10 ^ 10)%R (phi p0) (phi p1) (0, 0, 0)%R p0 p1 in
  (dist q p0 / dist p1 p0)%R.

(** L690-715: intersections with the nodes and with the sides. *)
Definition node_hit (v : nat -> R) (i : nat) : bool := rltb (Rabs (v i)) tol.
Definition side_hit (v : nat -> R) (i : nat) : bool :=
  let j := (i + 1) mod 4 in
  negb (node_hit v i) && (rltb tol (Rabs (v i)) && rltb tol (Rabs (v j)) && rltb (v i * v j)%R 0%R).

Definition b2n (b : bool) : nat := if b then 1 else 0.
(** L720-741 *)
Definition n_hits (nd sd : nat -> bool) : nat :=
  b2n (sd 0) + b2n (sd 1) + b2n (sd 2) + b2n (sd 3) + (b2n (nd 0) + b2n (nd 1) + b2n (nd 2) + b2n (nd 3)).

(** L764-804, case 2.  The state is (mode, ref_side, ref_node); [break] is modelled by ending the
    recursion. *)
Definition found : Type := (mode * nat * nat)%type.
Fixpoint case2 (nd sd : nat -> bool) (todo : list nat) (s : found) : found :=
  match todo with
  | [] => s
  | i :: t =>
      let '(md, rs, rn) := s in
      if sd i && sd ((i + 1) mod 4) then (ADJACENT_EDGES, i, rn)
      else if sd i && sd ((i + 2) mod 4) then (OPPOSITE_EDGES, i, rn)
      else if nd i && nd ((i + 2) mod 4) then (OPPOSITE_NODES, rs, i)
      else if nd i && sd ((i + 1) mod 4) then case2 nd sd t (NODE_AND_EDGE, i + 1, i)
      else if nd i && sd ((i + 2) mod 4) then case2 nd sd t (NODE_AND_EDGE, i + 2, i)
      else case2 nd sd t s
  end.
(** L806-822, case 3 *)
Fixpoint case3 (nd sd : nat -> bool) (todo : list nat) : found :=
  match todo with
  | [] => (NO_INTERSECTION, 0, 0)
  | i :: t => if nd i && sd ((i + 1) mod 4) && sd ((i + 2) mod 4)
              then (NODE_AND_TWO_EDGES, i + 1, i) else case3 nd sd t
  end.
(** L762-872: mode and reference numbers.  _mode is NO_INTERSECTION on entry.  [mid] is the test
    mid_phi * v0 > 0. *)
Definition find_mode (nd sd : nat -> bool) (mid : bool) : outcome found :=
  match n_hits nd sd with
  | 2 => Ok (case2 nd sd (seq 0 4) (NO_INTERSECTION, 0, 0))
  | 3 => Ok (case3 nd sd (seq 0 4))
  | 4 => Ok (if sd 0 && sd 1 && sd 2 && sd 3
             then (TWO_ADJACENT_EDGES, if mid then 0 else 1, 0) else (NO_INTERSECTION, 0, 0))
  | _ => Fault AssertFailed
  end.

(** L617-640: reference coordinates of the ends of the sides. *)
Definition ref_corner (k : nat) : pt :=
  match k with 0 => (-1, -1, 0)%R | 1 => (1, -1, 0)%R | 2 => (1, 1, 0)%R | _ => (-1, 1, 0)%R end.

(** The node made on side [k] at parameter [x] (L930-945 and the repetitions of this text). *)
Definition make_on (e : elem) (id : N) (k : nat) (x : R) : made :=
  let a := k mod 4 in let b := (k + 1) mod 4 in
  mkMade id (padd (e_pt e a) (pscale x (psub (e_pt e b) (e_pt e a)))) (a, b)
    (padd (ref_corner a) (pscale x (psub (ref_corner b) (ref_corner a)))) false.
(** L1055-1069: the hanging node, measured from the second end of the side. *)
Definition make_back (e : elem) (id : N) (k : nat) (x : R) : made :=
  let a := k mod 4 in let b := (k + 1) mod 4 in
  mkMade id (padd (e_pt e b) (pscale x (psub (e_pt e a) (e_pt e b)))) (a, b)
    (padd (ref_corner b) (pscale x (psub (ref_corner a) (ref_corner b)))) true.

(** The sub-elements of each mode; [r] is ref_side (already modulo four where the code uses it as a
    node number), [n] is ref_node, [diff] is ref_side - ref_node. *)
Definition o (k : nat) : vertex := Old (k mod 4).
Definition subs_of (m : mode) (r n : nat) : outcome (list sub) :=
  match m with
  | OPPOSITE_EDGES => (* L1009-1030 *)
      Ok [mkSub [Made 0; o (r + 1); o (r + 2); Made 1] 3; mkSub [Made 1; o (r + 3); o r; Made 0] 3]
  | ADJACENT_EDGES => (* L1085-1110 *)
      Ok [mkSub [Made 0; o (r + 1); Made 1] 2; mkSub [Made 0; Made 2; o (r + 3); o r] (-1);
          mkSub [Made 1; o (r + 2); Made 2; Made 0] 3]
  | NODE_AND_EDGE => (* L1150-1250 *)
      if r =? n + 1 then
        Ok [mkSub [o n; o (n + 1); Made 0] 2; mkSub [Made 0; o (r + 1); o (r + 2); o n] 3]
      else if r =? n + 2 then
        Ok [mkSub [o n; Made 0; o (n + 3)] 0; mkSub [o n; o (n + 1); o (n + 2); Made 0] 3]
      else Fault LibError
  | OPPOSITE_NODES => (* L1270-1318 *)
      Ok [mkSub [o n; o (n + 1); o (n + 2)] 2; mkSub [o (n + 2); o (n + 3); o n] 2]
  | NODE_AND_TWO_EDGES => (* L1370-1430 *)
      Ok [mkSub [o n; o (n + 1); Made 0] 2; mkSub [o n; Made 1; o (n + 3)] 0;
          mkSub [o n; Made 0; o (n + 2)] 0; mkSub [o n; o (n + 2); Made 1] 2]
  | TWO_ADJACENT_EDGES => (* L1495-1550 *)
      Ok [mkSub [Made 0; o (r + 1); Made 1] 2; mkSub [Made 3; Made 2; o (r + 3)] 0;
          mkSub [o r; Made 0; Made 2; Made 3] 2; mkSub [Made 0; Made 1; o (r + 2); Made 2] 0]
  | _ => Fault LibError
  end.
(** Which sub-elements go to _positive_phi_elems and which to _negative_phi_elems when
    ref_side_node0_positive holds; they are exchanged otherwise. *)
Definition split_of (m : mode) (r n : nat) : list nat * list nat :=
  match m with
  | OPPOSITE_EDGES => ([1], [0])                                  (* L1032-1041 *)
  | ADJACENT_EDGES => ([1; 2], [0])                               (* L1112-1123 *)
  | NODE_AND_EDGE => if r =? n + 1 then ([0], [1]) else ([1], [0]) (* L1196-1205, L1234-1243 *)
  | OPPOSITE_NODES => ([0], [1])                                  (* L1320-1329 *)
  | NODE_AND_TWO_EDGES => ([0; 1], [2; 3])                        (* L1433-1446 *)
  | _ => ([2; 3], [0; 1])                                         (* L1552-1565 *)
  end.
(** The nodes made in each mode, in the order of _new_nodes; ids are max_node + 1, 2, ... *)
Definition made_of (e : elem) (xi : nat -> R) (mx : N) (m : mode) (r : nat) : list made :=
  let x k := xi (k mod 4) in
  let n0 := make_on e (mx + 1)%N r (x r) in
  match m with
  | OPPOSITE_EDGES => [n0; make_on e (mx + 2)%N (r + 2) (x (r + 2))]
  | ADJACENT_EDGES => [n0; make_on e (mx + 2)%N (r + 1) (x (r + 1)); make_back e (mx + 3)%N (r + 2) (x r)]
  | NODE_AND_EDGE => [n0]
  | NODE_AND_TWO_EDGES => [n0; make_on e (mx + 2)%N (r + 1) (x (r + 1))]
  | TWO_ADJACENT_EDGES => [n0; make_on e (mx + 2)%N (r + 1) (x (r + 1));
                           make_on e (mx + 3)%N (r + 2) (x (r + 2)); make_on e (mx + 4)%N (r + 3) (x (r + 3))]
  | _ => []
  end.

Definition through (m : mode) : bool :=
  match m with NO_INTERSECTION | THROUGH_NODE | COLINEAR_EDGE => false | _ => true end.

(** Ids are unsigned int (32 bits). *)
Definition wrap (n : N) : N := N.modulo n (2 ^ 32).

(** Centroid of the four corners (libMesh::Elem::centroid). *)
Definition centroid (e : elem) : pt :=
  pscale (/ 4)%R (padd (padd (e_pt e 0) (e_pt e 1)) (padd (e_pt e 2) (e_pt e 3))).

(** L657-1581.  [subdom] is the subdomain of the element passed as [e] by the caller. *)
Definition find_quad4 (phi : pt -> R) (e : elem) (subdom : N) (mxe mxn : N) : outcome result :=
  let v i := phi (e_pt e i) in
  let nd := node_hit v in let sd := side_hit v in
  let xi i := if sd i then edge_xi phi (e_pt e i) (e_pt e ((i + 1) mod 4)) else 0%R in
  f <- find_mode nd sd (rltb 0%R (phi (centroid e) * v 0%nat)%R) ;;
  let '(m, r, n) := f in
  assert_ (through m)
  (let pos := match m with OPPOSITE_NODES => rltb 0%R (v (n + 1)) | _ => rltb 0%R (v (r mod 4)) end in
   subs <- subs_of m r n ;;
   let sp := split_of m r n in
   let a := map Some (fst sp) in let b := map Some (snd sp) in
   (* L490-518 *)
   assert_ (length subs <=? N.to_nat max_elem_divs)
   (Ok (mkRes m false false (if pos then a else b) (if pos then b else a) subs
     (map (fun i => wrap (mxe + e_id e * max_elem_divs + N.of_nat i)) (seq 0 (length subs)))
     (map (fun _ => subdom) subs) (made_of e xi mxn m r) 0 0))).

(** L426-471: first side with both ends on the level set. *)
Fixpoint colinear (v : nat -> R) (todo : list nat) : option nat :=
  match todo with
  | [] => None
  | i :: t => if on_ls (v i) && on_ls (v ((i + 1) mod 4)) then Some i else colinear v t
  end.

(** L313-521; [subdom] as above. *)
Definition init_ref (phi : pt -> R) (e : elem) (subdom : N) (mxe mxn : N) : outcome result :=
  let v i := phi (e_pt e i) in
  let s := scan_nodes v (n_nodes e) in
  let lo := sc_min s in let hi := sc_max s in
  let whole m p q pos neg k i := Ok (mkRes m p q pos neg [] [] [] [] k i) in
  if rltb tol lo then whole NO_INTERSECTION true false [None] [] (sc_last s) 0
  else if rltb hi (- tol)%R then whole NO_INTERSECTION false true [] [None] (sc_last s) 0
  else
    let v1 := if rltb (Rabs lo) tol then 0%R else lo in
    let v2 := if rltb (Rabs hi) tol then 0%R else hi in
    let sign_change := rltb (v1 * v2)%R 0%R in
    if (sc_n s =? 1) && negb sign_change then
      if rleb lo tol && rleb hi tol then whole THROUGH_NODE false false [] [None] (sc_last s) 0
      else assert_ (rltb tol hi) (whole THROUGH_NODE false false [None] [] (sc_last s) 0)
    else
      match colinear v (seq 0 4) with
      | Some i =>
          if rltb tol hi then whole COLINEAR_EDGE false false [None] [] (sc_last s) i
          else if rltb lo tol then whole COLINEAR_EDGE false false [] [None] (sc_last s) i
          else whole COLINEAR_EDGE false false [] [] (sc_last s) i
      | None => find_quad4 phi e subdom mxe mxn
      end.

(** L245-307.  For a QUAD9 a QUAD4 with the same corners and id is built; its subdomain id is left
    at the default 0.  Only QUAD4 and QUAD9 are handled. *)
Definition init (phi : pt -> R) (e : elem) (mxe mxn : N) : outcome result :=
  match e_type e with
  | QUAD4 => init_ref phi e (e_sub e) mxe mxn
  | QUAD9 => init_ref phi e 0%N mxe mxn
  | OTHER => Fault LibError
  end.

(** Position of a vertex of a sub-element. *)
Definition vpos (e : elem) (r : result) (x : vertex) : pt :=
  match x with
  | Old k => e_pt e k
  | Made j => match nth_error (r_made r) j with Some m => m_pt m | None => (0, 0, 0)%R end
  end.
(** Vertices of an entry of the positive or negative list. *)
Definition verts (r : result) (p : option nat) : list vertex :=
  match p with
  | None => [Old 0; Old 1; Old 2; Old 3]
  | Some k => match nth_error (r_subs r) k with Some s => s_vert s | None => [] end
  end.

(** Area of a polygon in the x-y plane, counter-clockwise positive. *)
Definition cross (p q : pt) : R :=
  (fst (fst p) * snd (fst q) - fst (fst q) * snd (fst p))%R.
Fixpoint shoe (first : pt) (l : list pt) : R :=
  match l with
  | [] => 0%R
  | p :: t => match t with [] => cross p first | q :: _ => (cross p q + shoe first t)%R end
  end.
Definition area (l : list pt) : R :=
  match l with [] => 0%R | p :: _ => (shoe p l / 2)%R end.
(** libMesh::Elem::volume of a plane triangle or quadrilateral in the x-y plane. *)
Definition volume (l : list pt) : R := Rabs (area l).

(** L159-175 *)
Definition positive_fraction (e : elem) (r : result) : R :=
  (lsum (map (fun p => volume (map (vpos e r) (verts r p))) (r_pos r)) /
   volume (map (e_pt e) (seq 0 4)))%R.
