(** Specification vocabulary for the filter: the cone filter of radius [r]. *)
From Coq Require Import List Arith Reals Permutation.
From Verif Require Import Base Filt_Model.
Import ListNotations.

(** Weight of a node at distance [d]. *)
Definition hat (r d : R) : R := Rmax 0 (r - d).

(** Cone-filtered value at a position. *)
Definition cone (r : R) (nodes : list node) (p : pt) (x : nat -> R) : R :=
  (lsum (map (fun q => hat r (dist p (snd q)) * x (fst q)) nodes) /
   lsum (map (fun q => hat r (dist p (snd q))) nodes))%R.

(** One node per dof, dofs numbered 0 .. n-1 (a Lagrange level-set system with one variable). *)
Definition well_numbered (nodes : list node) : Prop :=
  Permutation (map fst nodes) (seq 0 (List.length nodes)).

(** A KD-tree query: the nodes closer than the radius (squared distances), in any order. *)
Definition kd_query (nodes : list node) (kd : pt -> R -> list (nat * R)) : Prop :=
  forall p r2, Permutation (kd p r2)
    (map (fun q => (fst q, dist2 p (snd q)))
         (filter (fun q => if Rlt_dec (dist2 p (snd q)) r2 then true else false) nodes)).

(** A sparse input represents a full one. *)
Definition represents (z : nzmap) (x : nat -> R) : Prop :=
  forall k, match z k with Some v => v = x k | None => x k = 0%R end.

(** Convex combination with weights [w] of the given points. *)
Definition weighted (w : pt -> R) (ps : list pt) : pt :=
  (lsum (map (fun p => w p * fst (fst p)) ps), lsum (map (fun p => w p * snd (fst p)) ps),
   lsum (map (fun p => w p * snd p) ps))%R.
