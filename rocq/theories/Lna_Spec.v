(** What the assembly of a structure cut by a level set is expected to deliver, without reference to its loops. *)
From Coq Require Import Reals.
From Coquelicot Require Import Coquelicot.
From Coq Require Import List Arith Bool Permutation.
From Verif Require Import Base RBool Sens_Model Sens_Spec Lna_Model.
Import ListNotations.
Open Scope R_scope.

Definition cells (A : lna) : list lcell := concat (la_ranks A).
(** dof numbers exist, constraint rows refer to unconstrained dofs *)
Definition cells_ok (A : lna) : Prop :=
  (forall e d, In e (cells A) -> In d (lc_dofs e) -> (d < n (la_cons A))%nat) /\
  (forall d r j c, row (la_cons A) d = Some r -> In (j, c) r -> (j < n (la_cons A))%nat /\ row (la_cons A) j = None).
(** the indicator, if there is one, exceeds the threshold at a node *)
Definition shown (A : lna) (e : lcell) : bool := negb (la_ind A) || existsb (fun v => rltb (/ 10 ^ 10) v) (lc_nodes e).
(** the element has material that counts *)
Definition takes (A : lna) (th : params) (e : lcell) : bool := shown A e && lc_pos e th.
(** the element is void, or the indicator is below the threshold at all its nodes *)
Definition voided (A : lna) (th : params) (e : lcell) : bool :=
  lc_neg e th || (la_ind A && forallb (fun v => rltb v (/ 10 ^ 10)) (lc_nodes e)).
Definition condensed (A : lna) (e : lcell) : bool := la_handler A && lc_factor e.
Definition unfactored (A : lna) : Prop := forall e, In e (cells A) -> condensed A e = false.

(** the forces of the material in an element *)
Definition material (th : params) (e : lcell) (x : vec) (k : nat) : R := total (fun p => pc_res p th x k) (lc_hi e th).
Definition cut_residual (A : lna) (th : params) (X : vec) (i : nat) : R :=
  total (fun e => part (la_cons A) (lc_dofs e) (material th e (gather (lc_dofs e) X)) i) (filter (takes A th) (cells A)).
(** the small stiffness put into the void *)
Definition void_stiffness (A : lna) (th : params) (y : vec) (i : nat) : R :=
  / 10 ^ 14 * total (fun e => part (la_cons A) (lc_dofs e) (gather (lc_dofs e) y) i) (filter (voided A th) (cells A)).
Definition piece_jacobian (th : params) (m : nat) (p : piece) (x : vec) : Prop :=
  forall (q : R -> vec) (dq : vec),
    (forall k, (k < m)%nat -> q 0 k = x k) ->
    (forall k, (k < m)%nat -> is_derive (fun t => q t k) 0 (dq k)) ->
    forall k, (k < m)%nat ->
      is_derive (fun t => pc_res p th (q t) k) 0 (sum m (fun l => pc_jac p th x k l * dq l)).

(** ** condensation (area Cond): [rows] the material dofs of the element, [voids] the others *)
Definition delta (a b : nat) : R := if (a =? b)%nat then 1 else 0.
Definition inverse_of (m : nat) (M W : matrix) : Prop :=
  forall a b, (a < m)%nat -> (b < m)%nat ->
    sum m (fun c => M a c * W c b) = delta a b /\ sum m (fun c => W a c * M c b) = delta a b.
Definition void_block (voids : list nat) (M : matrix) : matrix := fun a b => M (nth a voids O) (nth b voids O).
Definition condenses (e : lcell) (rows voids : list nat) (M : matrix) : Prop :=
  Permutation (rows ++ voids) (seq 0 (length (lc_dofs e))) /\
  exists W, inverse_of (length voids) (void_block voids M) W /\
    forall v, exists juu ru, lc_cond e M v = (rows, juu, ru) /\
      (forall i, (i < length rows)%nat ->
         ru i = v (nth i rows O) - sum (length voids) (fun a => sum (length voids) (fun b =>
                  M (nth i rows O) (nth a voids O) * W a b * v (nth b voids O)))) /\
      (forall i j, (i < length rows)%nat -> (j < length rows)%nat ->
         juu i j = M (nth i rows O) (nth j rows O) - sum (length voids) (fun a => sum (length voids) (fun b =>
                  M (nth i rows O) (nth a voids O) * W a b * M (nth b voids O) (nth j rows O)))).
(** the homogenised element: the whole element weighted with the volume fraction of its material *)
Definition homog_res (th : params) (e : lcell) (x : vec) (k : nat) : R := lc_frac e th * pc_res (lc_whole e) th x k.
Definition homog_jac (th : params) (e : lcell) (x : vec) (k l : nat) : R := lc_frac e th * pc_jac (lc_whole e) th x k l.
(** the solution of a factored element: stored values for its void dofs *)
Definition elem_solution (A : lna) (X : vec) (e : lcell) : vec :=
  if condensed A e then lc_store e (gather (lc_dofs e) X) else gather (lc_dofs e) X.
(** the forces of an element, with the material dofs [rows e] of factored elements *)
Definition elem_forces (A : lna) (th : params) (rows : lcell -> list nat) (X : vec) (e : lcell) (k : nat) : R :=
  if condensed A e
  then (if existsb (Nat.eqb k) (rows e) then homog_res th e (elem_solution A X e) k else 0)
  else material th e (gather (lc_dofs e) X) k.
(** a change of the element's unknowns under which the void follows the material *)
Definition void_follows (th : params) (e : lcell) (voids : list nat) (x dx : vec) : Prop :=
  forall b, (b < length voids)%nat -> sum (length (lc_dofs e)) (fun l => homog_jac th e x (nth b voids O) l * dx l) = 0.
Definition restrict (rows : list nat) (v : vec) : vec := fun k => if existsb (Nat.eqb k) rows then v k else 0.

(** ** sensitivity *)
(** what the operations compute for the material of an element *)
Definition material_sensitivity (A : lna) (th : params) (f : nat) (e : lcell) (x : vec) (k : nat) : R :=
  total (fun p => pc_dres p th f x k + (if la_topo A f && pc_side p then pc_bnd p th f x k else 0)) (lc_hi e th).
(** Contract: it is the derivative of the forces of the material, whose shape follows the parameter. *)
Definition material_derivative (A : lna) (th : params) (f : nat) (e : lcell) (x : vec) : Prop :=
  forall k, (k < length (lc_dofs e))%nat ->
    is_derive (fun t => material (at_ th f t) e x k) (th f) (material_sensitivity A th f e x k).
(** sub-elements without a side on the boundary come before those with one *)
Definition sides_last (l : list piece) : Prop :=
  exists l1 l2, l = l1 ++ l2 /\ (forall p, In p l1 -> pc_side p = false) /\ (forall p, In p l2 -> pc_side p = true).
Definition excluded (A : lna) (f : nat) (e : lcell) : bool := match la_dep A with Some d => negb (d e f) | None => false end.
(** without material there are no sub-elements on the positive side *)
Definition pos_consistent (A : lna) : Prop := forall e t, In e (cells A) -> lc_pos e t = false -> lc_hi e t = [].

(** ** output *)
Definition cell_output (A : lna) (th : params) (x : vec) (e : lcell) : R :=
  (if la_low A then total (fun p => pc_q p th x) (lc_lo e th) else 0) +
  (if takes A th e then total (fun p => pc_q p th x) (lc_hi e th) else 0).
Definition cut_output (A : lna) (th : params) (X : vec) : R :=
  total (fun e => cell_output A th (gather (lc_dofs e) X) e) (cells A).
(** the pieces of an element that the output counts *)
Definition counted_pieces (A : lna) (th : params) (e : lcell) : list piece :=
  (if la_low A then lc_lo e th else []) ++ (if takes A th e then lc_hi e th else []).
Definition piece_gradient (th : params) (m : nat) (p : piece) (x : vec) : Prop :=
  forall (q : R -> vec) (dq : vec),
    (forall k, (k < m)%nat -> q 0 k = x k) ->
    (forall k, (k < m)%nat -> is_derive (fun t => q t k) 0 (dq k)) ->
    is_derive (fun t => pc_q p th (q t)) 0 (sum m (fun k => pc_qx p th x k * dq k)).
Definition share_sensitivity (A : lna) (th : params) (f : nat) (e : lcell) (x dx : vec) : R :=
  total (fun p => pc_qs p th f x dx + (if la_topo A f then pc_qb p th f x else 0)) (counted_pieces A th e).
(** Contract: the derivative of an element's share in the output along a path of its unknowns. *)
Definition share_derivative (A : lna) (th : params) (f : nat) (e : lcell) (x : vec) : Prop :=
  forall (q : R -> vec) (dq : vec),
    (forall k, (k < length (lc_dofs e))%nat -> q (th f) k = x k) ->
    (forall k, (k < length (lc_dofs e))%nat -> is_derive (fun t => q t k) (th f) (dq k)) ->
    is_derive (fun t => cell_output A (at_ th f t) (q t) e) (th f) (share_sensitivity A th f e x dq).
