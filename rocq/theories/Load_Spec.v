(** What loads on structural elements are expected to deliver. *)
From Coq Require Import Reals.
From Coquelicot Require Import Coquelicot.
From Coq Require Import List Arith Bool.
From Verif Require Import Base Sens_Spec Solid_Model Solid_Spec Dof6_Model Beam_Spec Plate_Spec Load_Model.
Import ListNotations.
Open Scope R_scope.

(** work of a force per unit length or area, with components in the axes of the element, on a displacement *)
Definition force_work (n : nat) (qs : list qpt) (t : frame) (force : qpt -> nat -> R) (d : dofs) : R :=
  integral qs (fun q => sum 3 (fun k => force q k * value n q (in_axes t d) k)).
(** the residual is internal minus external force: [f'] has the load in excess of [f] *)
Definition carries (n : nat) (qs : list qpt) (t : frame) (force : qpt -> nat -> R) (f f' : dofs) : Prop :=
  forall d, dot6 n (minusf f' f) d = - force_work n qs t force d.
(** a pressure on a plate acts against the normal of the element, on a beam against its second axis *)
Definition pressure_force (dim : nat) (p : R) (k : nat) : R := if Nat.eqb k dim then - p else 0.
(** translation of all nodes by T in the axes of the mesh *)
Definition translation (T : nat -> R) : dofs := fun c _ => if Nat.ltb c 3 then T c else 0.
(** a vector given in the axes of the mesh, in the axes of the element *)
Definition vec_in_axes (t : frame) (v : nat -> R) (k : nat) : R := match t with None => v k | Some t => sum 3 (fun l => t l k * v l) end.

(** piston theory: pressure at the normal velocity [wn], as a fraction of the flow velocity *)
Definition piston (order : nat) (fl : flow) (wn : R) : R :=
  let b := sqrt (fM fl ^ 2 - 1) in
  frho fl * fV fl ^ 2 / b * (wn + (if (Nat.eqb order 2 || Nat.eqb order 3)%bool then (fgam fl + 1) / 4 * fM fl * wn ^ 2 else 0)
                             + (if Nat.eqb order 3 then (fgam fl + 1) / 12 * fM fl ^ 2 * wn ^ 3 else 0)).
(** normal velocity of a surface with slope [dwdx] along the flow and velocity [dwdt] *)
Definition downwash (fl : flow) (dwdx dwdt : R) : R := dwdx + (fM fl ^ 2 - 2) / (fM fl ^ 2 - 1) * (dwdt / fV fl).
Definition supersonic (fl : flow) : Prop := 1 < fM fl ^ 2 /\ fV fl <> 0.
Definition flow_derivative (fl : R -> flow) (d : flow) (t0 : R) : Prop :=
  is_derive (fun s => fV (fl s)) t0 (fV d) /\ is_derive (fun s => fM (fl s)) t0 (fM d) /\
  is_derive (fun s => frho (fl s)) t0 (frho d) /\ is_derive (fun s => fgam (fl s)) t0 (fgam d).
(** slope of the deflection along a direction given in the axes of the mesh *)
Definition slope_along (n : nat) (q : qpt) (t : frame) (dir : nat -> R) (U : dofs) : R :=
  sum 2 (fun i => vec_in_axes t dir i * grad n q (in_axes t U) 2 i).

(** the loads of an element: every side, every boundary id of the side, every load with that id *)
Definition applies {load} (nsides : nat) (bids : nat -> list nat) (bc : list (nat * load)) (s : nat) (l : load) : Prop :=
  (s < nsides)%nat /\ exists id, In id (bids s) /\ In (id, l) bc.
Definition total_over {load} (nsides : nat) (bids : nat -> list nat) (bc : list (nat * load)) (g : nat -> load -> R) : R :=
  sum nsides (fun s => total (fun id => total (fun e => if Nat.eqb (fst e) id then g s (snd e) else 0) bc) (bids s)).
