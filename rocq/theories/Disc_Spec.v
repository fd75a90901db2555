(** Specification for C09-C11 and C60. *)
From Coq Require Import List Arith Bool.
From Verif Require Import Base Disc_Model.
Import ListNotations.

Fixpoint remove_one (l : list nat) (x : nat) : list nat :=
  match l with [] => [] | y :: t => if y =? x then t else y :: remove_one t x end.

(** The loads on one side id, replaying the history: adding appends, removing takes the first occurrence
    away (if any), clearing empties; operations on other ids do nothing. *)
Definition side_replay (id : nat) (cur : list nat) (o : dop) : list nat :=
  match o with
  | AddSide i l => if i =? id then cur ++ [l] else cur
  | RemoveSide i l => if i =? id then remove_one cur l else cur
  | ClearLoads => []
  | _ => cur
  end.
Definition vol_replay (id : nat) (cur : list nat) (o : dop) : list nat :=
  match o with
  | AddVol i l => if i =? id then cur ++ [l] else cur
  | RemoveVol i l | ClearVol i l => if i =? id then remove_one cur l else cur
  | ClearLoads => []
  | _ => cur
  end.
Definition card_replay (sid : nat) (cur : option nat) (o : dop) : option nat :=
  match o with SetCard s c => if s =? sid then Some c else cur | _ => cur end.

(** the client never registers a load / card twice, and clears only what is there *)
Definition side_now (h : list dop) (id : nat) : list nat := fold_left (side_replay id) h [].
Definition vol_now (h : list dop) (id : nat) : list nat := fold_left (vol_replay id) h [].
Definition card_now (h : list dop) (sid : nat) : option nat := fold_left (card_replay sid) h None.

(** dof [d] is constrained *)
Definition constrained (bc : nat -> option (list nat)) (sub : nat -> list nat)
    (elems : list elem) (rows : list (nat * nat)) (d : nat) : Prop :=
  (exists e v, In e elems /\ In v (sub (subdomain e)) /\ In d (dof_indices e v)) \/
  (exists e s b vars v k, In e elems /\ In s (sides e) /\ neighbor s = false /\ In b (bids s) /\
     bc b = Some vars /\ In v vars /\ In k (side_dofs0 s) /\ nth_error (dof_indices e v) k = Some d) \/
  In (d, 0) rows.
