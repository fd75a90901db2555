(** What the buckling analysis is expected to compute. *)
From Coq Require Import Reals.
From Coquelicot Require Import Coquelicot.
From Coq Require Import List Arith Bool Permutation.
From Verif Require Import Base Sens_Model Sens_Spec Lei_Spec Bck_Model.
Import ListNotations.
Open Scope R_scope.

Definition rank_elems (rk : bool * R * list belem) : list belem := snd rk.
Definition mesh_elems (rks : list (bool * R * list belem)) : list belem := flat_map snd rks.
(** tangent stiffness of an element at a load and a solution, and its rate *)
Definition tangent (th : params) (lam : R) (X : vec) (e : belem) (k l : nat) : R :=
  let s := fun k => X (nth k (be_dofs e) O) in
  be_int e th lam s k l + be_pre e th lam s k l + be_side e th lam s k l + be_vol e th lam s k l.
Definition tangent_rate (th : params) (lam : R) (f : nat) (X dX : vec) (e : belem) (k l : nat) : R :=
  let s := fun k => X (nth k (be_dofs e) O) in let ds := fun k => dX (nth k (be_dofs e) O) in
  be_dint e th lam f s ds k l + be_dpre e th lam f s ds k l + be_dside e th lam f s ds k l + be_dvol e th lam f s ds k l.
(** the bilinear form of the tangent stiffness of the structure *)
Definition stiffness (th : params) (es : list belem) (lam : R) (X x y : vec) : R :=
  total (fun e => local_form (be_dofs e) (tangent th lam X e) x y) es.
Definition stiffness_rate (th : params) (es : list belem) (lam : R) (f : nat) (X dX x y : vec) : R :=
  total (fun e => local_form (be_dofs e) (tangent_rate th lam f X dX e) x y) es.
Definition bmesh_ok (C : sys) (es : list belem) : Prop :=
  (forall e d, In e es -> In d (be_dofs e) -> (d < n C)%nat) /\
  (forall d r j c, row C d = Some r -> In (j, c) r -> (j < n C)%nat /\ row C j = None) /\
  (forall e d r j c, In e es -> In d (be_dofs e) -> row C d = Some r -> In (j, c) r -> In j (be_dofs e)).
(** no process ever meets an element while it holds another *)
Definition one_each (rks : list (bool * R * list belem)) : Prop :=
  forall h load es, In (h, load, es) rks -> es = [] \/ h = false /\ length es = 1%nat.
(** the stiffness at a fraction s of the way from the first state to the second *)
Definition between (T1 T2 : vec -> vec -> R) (s : R) (x y : vec) : R := T1 x y + s * (T2 x y - T1 x y).
(** z is a mode of the pencil: A z = v B z on admissible vectors *)
Definition pencil_mode (C : sys) (A B : matrix) (v : R) (z : vec) : Prop :=
  admissible C z /\ forall y, admissible C y -> bilinear (n C) A y z = v * bilinear (n C) B y z.
