(** Specifications for C06-C08 and C12. *)
From Coq Require Import String List Arith Reals Bool Relations.
From Verif Require Import Base Func_Model.
Import ListNotations.

(** an edge: [b] was registered as a dependency of the field function [a] *)
Definition registered (g : graph) (a b : nat) : Prop :=
  exists deps, g a = KField deps /\ In b deps.

(** what the English says: a Parameter depends on itself only; an "always" function on everything; a
    field function on whatever can be reached through one or more registered dependencies -- or on
    everything if an "always" function can be reached. *)
Definition truly_depends (g : graph) (n f : nat) : Prop :=
  match g n with
  | KParameter => f = n
  | KAlways => True
  | KField _ => clos_trans nat (registered g) n f \/
                exists m, clos_trans nat (registered g) n m /\ g m = KAlways
  end.

(** acyclic: some ranking decreases along every registered dependency *)
Definition ranked (g : graph) (rank : nat -> nat) : Prop :=
  forall a b, registered g a b -> rank b < rank a.

(** every function that takes part in a card *)
Inductive card_fn : card -> nat -> Prop :=
| cf_base : forall c nm f, In (nm, f) c -> card_fn (CBase c) f
| cf_solid_m : forall m c f, card_fn m f -> card_fn (CSolid m c) f
| cf_solid_c : forall m c nm f, In (nm, f) c -> card_fn (CSolid m c) f
| cf_multi_l : forall ls offs c k f, In k ls -> card_fn k f -> card_fn (CMulti ls offs c) f
| cf_multi_o : forall ls offs c f, In f offs -> card_fn (CMulti ls offs c) f
| cf_multi_c : forall ls offs c nm f, In (nm, f) c -> card_fn (CMulti ls offs c) f.

(** the same without the multilayer cards' own properties *)
Inductive card_fn_seen : card -> nat -> Prop :=
| cs_base : forall c nm f, In (nm, f) c -> card_fn_seen (CBase c) f
| cs_solid_m : forall m c f, card_fn_seen m f -> card_fn_seen (CSolid m c) f
| cs_solid_c : forall m c nm f, In (nm, f) c -> card_fn_seen (CSolid m c) f
| cs_multi_l : forall ls offs c k f, In k ls -> card_fn_seen k f -> card_fn_seen (CMulti ls offs c) f
| cs_multi_o : forall ls offs c f, In f offs -> card_fn_seen (CMulti ls offs c) f.

(** The contract of a client of Parameter objects: objects are numbered in order of creation and each
    operation names an object that was created and not yet destroyed.
    [n] objects so far, [dead] the destroyed ones. *)
Fixpoint contract (n : nat) (dead : list nat) (ops : list pop) : Prop :=
  match ops with
  | [] => True
  | PNew _ :: t => contract (S n) dead t
  | PCopy o :: t => o < n /\ ~ In o dead /\ contract (S n) dead t
  | PAssign o _ :: t => o < n /\ ~ In o dead /\ contract n dead t
  | PRead o :: t => o < n /\ ~ In o dead /\ contract n dead t
  | PDestroy o :: t => o < n /\ ~ In o dead /\ contract n (o :: dead) t
  end.

(** last value given to object [o] (created by the o-th creation), without copies *)
Fixpoint current (n : nat) (ops : list pop) (o : nat) (acc : option R) : option R :=
  match ops with
  | [] => acc
  | PNew v :: t => current (S n) t o (if o =? n then Some v else acc)
  | PAssign x v :: t => current n t o (if o =? x then Some v else acc)
  | PDestroy x :: t => current n t o (if o =? x then None else acc)
  | _ :: t => current n t o acc
  end.
Definition no_copy (ops : list pop) : Prop := Forall (fun o => match o with PCopy _ => False | _ => True end) ops.

(** value of parameter [p] after a list of assignments (parameter, value) *)
Fixpoint last_assign (l : list (nat * R)) (p : nat) (init : R) : R :=
  match l with
  | [] => init
  | (q, v) :: t => last_assign t p (if q =? p then v else init)
  end.
