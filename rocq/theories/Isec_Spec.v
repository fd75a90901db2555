(** Specification vocabulary for the level-set intersection. *)
From Coq Require Import List Arith NArith Reals.
From Verif Require Import Base Filt_Model Isec_Model.
Import ListNotations.
Open Scope R_scope.

(** The parent element handled by the intersection. *)
Definition quad (e : elem) : Prop := e_type e = QUAD4 \/ e_type e = QUAD9.

(** The point at parameter [x] of the segment from [p] to [q]. *)
Definition along (p q : pt) (x : R) : pt :=
  match p, q with
  | (a, b, c), (a', b', c') => ((1 - x) * a + x * a', (1 - x) * b + x * b', (1 - x) * c + x * c')
  end.

(** The level set is affine along the segment. *)
Definition affine_on (phi : pt -> R) (p q : pt) : Prop :=
  forall x, 0 <= x <= 1 -> phi (along p q x) = (1 - x) * phi p + x * phi q.

(** Twice the signed area of a triangle. *)
Definition tri (p q r : pt) : R :=
  match p, q, r with
  | (a, b, _), (c, d, _), (e, f, _) => (c - a) * (f - b) - (e - a) * (d - b)
  end.
(** The corners are those of a convex quadrilateral, counter-clockwise, not degenerate. *)
Definition convex_ccw (p : nat -> pt) : Prop :=
  0 <= tri (p 0%nat) (p 1%nat) (p 2%nat) /\ 0 <= tri (p 1%nat) (p 2%nat) (p 3%nat) /\
  0 <= tri (p 2%nat) (p 3%nat) (p 0%nat) /\ 0 <= tri (p 3%nat) (p 0%nat) (p 1%nat) /\
  0 < tri (p 0%nat) (p 1%nat) (p 2%nat) + tri (p 2%nat) (p 3%nat) (p 0%nat).

(** Bilinear map of the reference square to the quadrilateral. *)
Definition bilinear (p : nat -> pt) (l : pt) : pt :=
  match l with
  | (x, y, _) =>
      padd (padd (pscale ((1 - x) * (1 - y) / 4) (p 0%nat)) (pscale ((1 + x) * (1 - y) / 4) (p 1%nat)))
           (padd (pscale ((1 + x) * (1 + y) / 4) (p 2%nat)) (pscale ((1 - x) * (1 + y) / 4) (p 3%nat)))
  end.

(** A vertex of a piece is on the interface: a corner of the element on the level set, or a node made
    where an edge crosses it. *)
Definition on_interface (phi : pt -> R) (e : elem) (r : result) (x : vertex) : Prop :=
  match x with
  | Old k => (k < 4)%nat /\ Rabs (phi (e_pt e k)) <= tol
  | Made j => exists nd, nth_error (r_made r) j = Some nd /\ m_hang nd = false
  end.
(** The two ends of side [k] of a piece. *)
Definition side_of (s : sub) (k : nat) (x y : vertex) : Prop :=
  nth_error (s_vert s) k = Some x /\ nth_error (s_vert s) (S k mod length (s_vert s)) = Some y.
