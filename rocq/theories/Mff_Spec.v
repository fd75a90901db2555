(** Specification of mesh functions in terms of the calls made. *)
From Coq Require Import Reals List Arith Bool.
From Coquelicot Require Import Coquelicot.
From Verif Require Import Base Mff_Model.
Import ListNotations.
Open Scope R_scope.

(** the vectors of the owner after a history: only the owner's writes and releases count *)
Definition owner (h : heap) (o : mop) : heap :=
  match o with
  | OWrite id v => fun k => if (k =? id)%nat then match h k with Some (ty, _) => Some (ty, v) | None => None end else h k
  | ORelease id => fun k => if (k =? id)%nat then None else h k
  | _ => h
  end.
Definition vectors (h : heap) (ops : list mop) : heap := fold_left owner ops h.
(** the quadrature point solution in force: the last one set and not taken back *)
Definition in_force (ops : list mop) : option vec :=
  fold_left (fun q o => match o with OSetQp v => Some v | OClearQp | OClear => None | _ => q end) ops None.
(** an initialisation, successful or not, since the last clear *)
Definition started (ops : list mop) : bool :=
  fold_left (fun b o => match o with OInit _ _ => true | OClear => false | _ => b end) ops false.
(** a sensitivity attempted for f since the last clear *)
Definition attempted (f : nat) (ops : list mop) : bool :=
  fold_left (fun b o => match o with OInitSens g _ _ => (f =? g)%nat || b | OClear => false | _ => b end) ops false.
Definition no_init (ops : list mop) : Prop := forall o, In o ops -> match o with OInit _ _ | OClear => False | _ => True end.
Definition no_sens (f : nat) (ops : list mop) : Prop :=
  forall o, In o ops -> match o with OInitSens g _ _ => g <> f | OClear => False | _ => True end.
(** the field of a vector: shape functions times entries *)
Definition field (n : nat) {point : Type} (shape : point -> nat -> nat -> R) (v : vec) (p : point) (i : nat) : R :=
  sum n (fun a => shape p i a * v a).
Definition field_grad (n : nat) {point : Type} (dshape : point -> nat -> nat -> nat -> R) (v : vec) (p : point) (i j : nat) : R :=
  sum n (fun a => dshape p i a j * v a).
(** complex functions *)
Definition cowner (h : heap) (o : cop) : heap :=
  match o with
  | CWrite id v => fun k => if (k =? id)%nat then match h k with Some (ty, _) => Some (ty, v) | None => None end else h k
  | CRelease id => fun k => if (k =? id)%nat then None else h k
  | _ => h
  end.
Definition cvectors (h : heap) (ops : list cop) : heap := fold_left cowner ops h.
Definition c_quiet (ops : list cop) : Prop := forall o, In o ops -> match o with CInit _ _ | CClear => False | _ => True end.
Definition p_quiet (ops : list cop) : Prop := forall o, In o ops -> match o with CPert _ _ | CClear => False | _ => True end.
Definition c_started (ops : list cop) : bool :=
  fold_left (fun b o => match o with CInit _ _ => true | CClear => false | _ => b end) ops false.
Definition p_started (ops : list cop) : bool :=
  fold_left (fun b o => match o with CPert _ _ => true | CClear => false | _ => b end) ops false.
