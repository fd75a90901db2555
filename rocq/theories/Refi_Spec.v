(** Specification vocabulary for the sub-element mesh refinement. *)
From Coq Require Import List Arith NArith ZArith Bool Reals.
From Verif Require Import Base Filt_Model Isec_Model Isec_Spec Refi_Model.
Import ListNotations.
Open Scope nat_scope.

(** A mesh as libMesh keeps it: objects are distinct, ids are distinct, elements refer to nodes of
    the mesh and have the right number of them, subdomain ids fit into 16 bits. *)
Definition size_of (t : ctype) : nat := match t with TQuad4 => 4 | TQuad9 => 9 | TTri3 => 3 | TOther => 0 end.
Record wf (m : mesh) : Prop := {
  wf_nodes : NoDup (map nd_ptr (ms_nodes m));
  wf_ids : NoDup (map nd_id (ms_nodes m));
  wf_cells : NoDup (map ce_ptr (ms_cells m));
  wf_fresh_n : forall n, In n (ms_nodes m) -> nd_ptr n < ms_fresh m;
  wf_fresh_c : forall c, In c (ms_cells m) -> ce_ptr c < ms_fresh m;
  wf_sides : forall x, In x (ms_sides m) -> fst (fst x) < ms_fresh m;
  wf_conn : forall c, In c (ms_cells m) -> length (ce_conn c) = size_of (ce_type c) /\
              forall p, In p (ce_conn c) -> In p (map nd_ptr (ms_nodes m));
  wf_sub : forall c, In c (ms_cells m) -> (ce_sub c < 2 ^ 16)%N }.

(** Everything of a mesh except the numbering: node objects and positions, element objects, types,
    connectivity and subdomain ids, boundary sides. *)
Definition same_mesh (a b : mesh) : Prop :=
  map (fun n => (nd_ptr n, nd_pt n)) (ms_nodes a) = map (fun n => (nd_ptr n, nd_pt n)) (ms_nodes b) /\
  map (fun c => (ce_ptr c, ce_type c, ce_conn c, ce_sub c)) (ms_cells a) =
  map (fun c => (ce_ptr c, ce_type c, ce_conn c, ce_sub c)) (ms_cells b) /\
  ms_sides a = ms_sides b.
(** ... and the numbering. *)
Definition same_numbers (a b : mesh) : Prop :=
  map nd_id (ms_nodes a) = map nd_id (ms_nodes b) /\ map ce_id (ms_cells a) = map ce_id (ms_cells b).

(** Contract of prepare_for_use: it renumbers nodes and elements, injectively, and allocates
    nothing that is modelled. *)
Record renumbers (prep : mesh -> mesh) : Prop := {
  rn_same : forall m, same_mesh (prep m) m;
  rn_fresh : forall m, ms_fresh (prep m) = ms_fresh m;
  rn_ids : forall m, NoDup (map nd_id (ms_nodes m)) -> NoDup (map nd_id (ms_nodes (prep m))) }.
(** The numbering chosen only depends on the rest of the mesh. *)
Definition canonical (prep : mesh -> mesh) : Prop :=
  forall a b, same_mesh a b -> same_numbers (prep a) (prep b).

(** Calls on one refinement object. *)
Inductive call := Process (a : args) | Clear.
Definition do_call (prep : mesh -> mesh) (c : call) (s : state) : outcome (state * bool) :=
  match c with Process a => process_mesh prep a s | Clear => clear_mesh prep s end.
Fixpoint do_calls (prep : mesh -> mesh) (l : list call) (s : state) : outcome state :=
  match l with [] => Ok s | c :: t => x <- do_call prep c s ;; do_calls prep t (fst x) end.

(** Requests for nodes on edges: location, side of the level set, ends of the edge. *)
Record request := mkReq { q_pt : pt; q_pos : bool; q_a : nat; q_b : nat }.
Definition same_edge (x y : request) : Prop :=
  (q_a x = q_a y /\ q_b x = q_b y) \/ (q_a x = q_b y /\ q_b x = q_a y).
Fixpoint serve (strong : bool) (l : list request) (s : state) : outcome (list nat * state) :=
  match l with
  | [] => Ok ([], s)
  | q :: t => x <- add_node (q_pt q) strong (q_pos q) (q_a q) (q_b q) s ;;
              y <- serve strong t (snd x) ;; Ok (fst x :: fst y, snd y)
  end.

(** The nodes of a piece of a cut element, given the node [share a b side] used on the edge a-b. *)
Definition piece_conn (share : nat -> nat -> bool -> nat) (c : cell) (r : result) (side : bool) (s : sub) : list nat :=
  map (fun v => match v with
                | Old k => nth k (ce_conn c) 0
                | Made j => match nth_error (r_made r) j with
                            | Some nd => share (nth (fst (m_bound nd)) (ce_conn c) 0) (nth (snd (m_bound nd)) (ce_conn c) 0) side
                            | None => 0
                            end
                end) (s_vert s).

(** A child made from a piece of a cut element, or the copy of an element touching the level set. *)
Definition piece_child (a : args) (share : nat -> nat -> bool -> nat) (c : cell) (r : result) (d : bool) (j : nat) (k : cell) : Prop :=
  In (Some j) (if d then r_pos r else r_neg r) /\
  exists sb, nth_error (r_subs r) j = Some sb /\ ce_conn k = piece_conn share c r d sb /\
    ce_type k = child_type sb /\ ce_sub k = child_sub a c (child_type sb) d.
(** The node at place [i] of an element is where the level set touches it: the corner reported, or the
    nodes of the side reported. *)
Definition touched_place (c : cell) (r : result) (i : nat) : Prop :=
  (r_mode r = THROUGH_NODE /\ i = r_node r) \/
  (r_mode r = COLINEAR_EDGE /\ (i = r_edge r \/ i = (r_edge r + 1) mod 4 \/ (ce_type c = TQuad9 /\ i = r_edge r + 4))).
Definition touched (c : cell) (r : result) (p : nat) : Prop :=
  exists i, touched_place c r i /\ nth_error (ce_conn c) i = Some p.
(** A copy of an element: other nodes where the level set touches it, the same nodes elsewhere. *)
Definition copy_child (a : args) (share : nat -> nat -> bool -> nat) (c : cell) (r : result) (k : cell) : Prop :=
  ce_type k = ce_type c /\ ce_sub k = sub16 (ce_sub c + a_neg a) /\
  Forall2 (fun p q => (touched c r p -> q = share p p false) /\ (~ touched c r p -> q = p)) (ce_conn c) (ce_conn k).

(** A point of the segment from x to y. *)
Definition on_seg (x y z : pt) : Prop := exists t, (0 <= t <= 1)%R /\ z = along x y t.

(** Elements of the processed mesh on one side of the level set (true: positive): pieces of cut
    elements reported on that side, and elements with all nodal values on that side. *)
Definition lies (a : args) (m : mesh) (share : nat -> nat -> bool -> nat) (k : cell) (d : bool) : Prop :=
  (exists c r j, In c (ms_cells m) /\ init (a_phi a) (cell_elem m c) (max_elem_id m) (max_node_id m) = Ok r /\
     piece_child a share c r d j k) \/
  (exists c, In c (ms_cells m) /\ ce_ptr k = ce_ptr c /\ ce_conn k = ce_conn c /\
     forall p, In p (ce_conn c) -> if d then (0 < a_phi a (npt m p))%R else (a_phi a (npt m p) < 0)%R).
(** The cut element an element of the processed mesh stems from is kept, with another subdomain id. *)
Definition parent (a : args) (m : mesh) (k : cell) : Prop :=
  exists c r, In c (ms_cells m) /\ ce_ptr k = ce_ptr c /\
    init (a_phi a) (cell_elem m c) (max_elem_id m) (max_node_id m) = Ok r /\ through (r_mode r) = true /\
    ce_sub k = sub16 (ce_sub c + a_in a).

(** Value of a constraint row for a field given by its dofs. *)
Definition row_value (w : row) (u : nat -> R) : R := lsum (map (fun x => (snd x * u (fst x))%R) w).
