(** Which dofs are switched off. *)
From Coq Require Import Reals List Arith.
From Verif Require Import Base Vdo_Model.
Import ListNotations.
Open Scope R_scope.

(** a dof of the elements [cells] none of whose elements has a part in the material *)
Definition void_dof (cells : list vcell) (d : nat) : Prop :=
  (exists c, In c cells /\ In d (v_dofs c)) /\ forall c, In c cells -> In d (v_dofs c) -> v_pos c = false.
(** a dof of a node on the void side of a cut element, or on the boundary *)
Definition low_dof (cells : list vcell) (d : nat) : Prop :=
  exists c phi ds, In c cells /\ v_cut c = true /\ In (phi, ds) (v_nodes c) /\ phi <= 0 /\ In d ds.
(** a dof of an element with no indicator above the tolerance, and not of a cut element with one *)
Definition silent_dof (cells : list vcell) (d : nat) : Prop :=
  (exists c, In c cells /\ In d (v_dofs c) /\ forall v, In v (v_ind c) -> v <= tol) /\
  forall c v, In c cells -> In d (v_dofs c) -> v_cut c = true -> In v (v_ind c) -> v <= tol.
(** [C'] is [C] with homogeneous rows (value zero) for the dofs [P] that had none *)
Definition zeroed (P : nat -> Prop) (C C' : drows) : Prop :=
  forall d, (C d <> None -> C' d = C d) /\ (C d = None -> P d -> C' d = Some []) /\ (C d = None -> ~ P d -> C' d = None).
