(** What the eigenproblem of a cut structure is expected to be. *)
From Coq Require Import Reals.
From Coquelicot Require Import Coquelicot.
From Coq Require Import List Arith Bool Permutation.
From Verif Require Import Base Sens_Model Sens_Spec Lei_Model.
Import ListNotations.
Open Scope R_scope.

(** x^T M y *)
Definition bilinear (m : nat) (M : matrix) (x y : vec) : R := sum m (fun i => sum m (fun j => x i * M i j * y j)).
(** the same for the matrix of an element and global vectors *)
Definition local_form (ds : list nat) (m : matrix) (x y : vec) : R :=
  sum (length ds) (fun k => sum (length ds) (fun l => x (nth k ds O) * m k l * y (nth l ds O))).
Definition all_cells (A : lei) : list ecell := concat (le_ranks A).
Definition local_state (b : option vec) (e : ecell) : vec := match b with Some X => fun k => X (nth k (ec_dofs e) O) | None => fun _ => 0 end.
(** the material in an element: its parts on the positive side *)
Definition material_matrix (m : epart -> params -> vec -> matrix) (th : params) (e : ecell) (s : vec) (k l : nat) : R :=
  if ec_pos e th then total (fun p => m p th s k l) (ec_hi e th) else 0.
(** the form of the cut structure, with the base solution [b] *)
Definition cut_form (m : epart -> params -> vec -> matrix) (A : lei) (th : params) (b : option vec) (x y : vec) : R :=
  total (fun e => local_form (ec_dofs e) (material_matrix m th e (local_state b e)) x y) (all_cells A).
(** the form of all elements that hold some material, taken whole *)
Definition whole_form (m : epart -> params -> vec -> matrix) (A : lei) (th : params) (b : option vec) (x y : vec) : R :=
  total (fun e => local_form (ec_dofs e) (m (ec_whole e) th (local_state b e)) x y) (filter (fun e => ec_pos e th) (all_cells A)).
(** dofs exist; constraint rows refer to free dofs, those of an element to its own *)
Definition mesh_ok (A : lei) : Prop :=
  (forall e d, In e (all_cells A) -> In d (ec_dofs e) -> (d < n (le_cons A))%nat) /\
  (forall d r j c, row (le_cons A) d = Some r -> In (j, c) r -> (j < n (le_cons A))%nat /\ row (le_cons A) j = None) /\
  (forall e d r j c, In e (all_cells A) -> In d (ec_dofs e) -> row (le_cons A) d = Some r -> In (j, c) r -> In j (ec_dofs e)).
(** no element is cut: those with material consist of it *)
Definition uncut (A : lei) (th : params) (b : option vec) : Prop :=
  forall e, In e (all_cells A) -> ec_pos e th = true -> forall k l,
    pt_A (ec_whole e) th (local_state b e) k l = material_matrix pt_A th e (local_state b e) k l /\
    pt_B (ec_whole e) th (local_state b e) k l = material_matrix pt_B th e (local_state b e) k l.
(** Contract: along the path [p] of the local solution the matrix of the material changes by the sensitivities of the parts and,
    for a parameter of the level set, the boundary terms of the parts with a side on it. *)
Definition part_rate (d : epart -> params -> nat -> bool -> vec -> vec -> matrix) (b : epart -> params -> nat -> vec -> matrix)
    (A : lei) (th : params) (f : nat) (s ds : vec) (p : epart) (k l : nat) : R :=
  d p th f (is_some (le_base A)) s ds k l + (if le_topo A f then if pt_side p then b p th f s k l else 0 else 0).
Definition material_rates (A : lei) (th : params) (f : nat) (e : ecell) (p : R -> vec) (s ds : vec) : Prop :=
  forall k l, (k < length (ec_dofs e))%nat -> (l < length (ec_dofs e))%nat ->
    is_derive (fun t => material_matrix pt_A (at_ th f t) e (p t) k l) (th f)
      (if ec_pos e th then total (fun q => part_rate pt_dA pt_bA A th f s ds q k l) (ec_hi e th) else 0) /\
    is_derive (fun t => material_matrix pt_B (at_ th f t) e (p t) k l) (th f)
      (if ec_pos e th then total (fun q => part_rate pt_dB pt_bB A th f s ds q k l) (ec_hi e th) else 0).
(** the base solution follows the parameter, with the sensitivity that was given; without one there is none *)
Definition base_follows (A : lei) (th : params) (f : nat) (U : R -> option vec) : Prop :=
  U (th f) = le_base A /\
  match le_base A, le_dbase A with
  | Some _, Some dX => exists V : R -> vec, (forall t, U t = Some (V t)) /\ forall d, is_derive (fun t => V t d) (th f) (dX d)
  | Some _, None => False
  | None, _ => forall t, U t = None
  end.
(** the same elements on other processes *)
Definition redistributed (A A' : lei) : Prop :=
  le_cons A' = le_cons A /\ le_set A' = le_set A /\ le_base A' = le_base A /\ le_vel A' = le_vel A /\ le_topo A' = le_topo A /\
  le_dbase A' = le_dbase A /\ Permutation (all_cells A) (all_cells A').
