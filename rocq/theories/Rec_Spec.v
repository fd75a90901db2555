(** What stress recovery is expected to deliver. *)
From Coq Require Import Reals.
From Coquelicot Require Import Coquelicot.
From Coq Require Import List Arith Bool.
From Verif Require Import Base Sens_Spec Solid_Model Solid_Spec Dof6_Model Beam_Model Beam_Spec Plate_Model Plate_Spec Rec_Model.
Import ListNotations.
Open Scope R_scope.

(** free thermal strain *)
Definition free_strain (h : option heat) (q : qpt) : R := match h with
  | Some h => h_alpha h q * (h_T h q - h_ref h q) | None => 0 end.
(** the corner number k of a rectangular section: even numbers at the larger y, the first two at the larger z *)
Definition corner_y (D : bdat) (q : qpt) (k : nat) : R := b_hy_off D q + (if Nat.even k then b_hy D q / 2 else - (b_hy D q / 2)).
Definition corner_z (D : bdat) (q : qpt) (k : nat) : R := b_hz_off D q + (if Nat.ltb k 2 then b_hz D q / 2 else - (b_hz D q / 2)).
(** mechanical strain and stress along the axis at a corner; [u] in the axes of the element *)
Definition beam_e (vk : bool) (b : bending) (n : nat) (D : bdat) (q : qpt) (k : nat) (u : dofs) : R :=
  axial (vk && bends b) n q u + corner_y D q k * curv_y b n q u + corner_z D q k * curv_z b n q u - free_strain (b_heat D) q.
Definition beam_s (vk : bool) (b : bending) (n : nat) (D : bdat) (q : qpt) (k : nat) (u : dofs) : R :=
  b_C D q 0%nat 0%nat * beam_e vk b n D q k u + b_C D q 0%nat 1%nat * twist n q u.

(** the skins of a plate: number 0 is the upper one *)
Definition height (D : pdat) (q : qpt) (k : nat) : R := p_off D q + (if Nat.eqb k 0 then p_h D q / 2 else - (p_h D q / 2)).
(** components xx, yy, xy *)
Definition plate_e (nl : bool) (b : plate) (n : nat) (D : pdat) (q : qpt) (k : nat) (u : dofs) (r : nat) : R :=
  membrane nl (nl && pbends b) n q u r + height D q k * curvature b n q u r - (if Nat.ltb r 2 then free_strain (p_heat D) q else 0).
Definition plate_s (nl : bool) (b : plate) (n : nat) (D : pdat) (q : qpt) (k : nat) (u : dofs) (r : nat) : R :=
  sum 3 (fun i => p_C D q r i * plate_e nl b n D q k u i).
(** components of the three dimensional vector (xx, yy, zz, xy, yz, zx) *)
Definition in_plane (r : nat) : option nat := match r with 0%nat => Some 0%nat | 1%nat => Some 1%nat | 3%nat => Some 2%nat | _ => None end.
Definition component6 (v : nat -> R) (r : nat) : R := match in_plane r with Some i => v i | None => 0 end.

(** the sensitivity stored for a parameter *)
Fixpoint stored (f : nat) (l : list (nat * ((nat -> R) * (nat -> R)))) : option ((nat -> R) * (nat -> R)) := match l with
  | [] => None | (g, v) :: l => if Nat.eqb g f then Some v else stored f l end.

(** data that depends on a parameter *)
Definition heat_der (H : R -> option heat) (H' : option heat) (t0 : R) (q : qpt) : Prop :=
  (H' = None /\ forall s, H s = None) \/
  exists h h', H' = Some h' /\ (forall s, H s = Some (h s)) /\ is_derive (fun s => h_T (h s) q) t0 (h_T h' q) /\
    is_derive (fun s => h_ref (h s) q) t0 (h_ref h' q) /\ is_derive (fun s => h_alpha (h s) q) t0 (h_alpha h' q).
Definition bdat_der (D : R -> bdat) (D' : bdat) (t0 : R) (q : qpt) : Prop :=
  mat_der 2 (fun s => b_C (D s) q) (b_C D' q) t0 /\ heat_der (fun s => b_heat (D s)) (b_heat D') t0 q /\
  is_derive (fun s => b_hy (D s) q) t0 (b_hy D' q) /\ is_derive (fun s => b_hz (D s) q) t0 (b_hz D' q) /\
  is_derive (fun s => b_hy_off (D s) q) t0 (b_hy_off D' q) /\ is_derive (fun s => b_hz_off (D s) q) t0 (b_hz_off D' q).
Definition pdat_der (D : R -> pdat) (D' : pdat) (t0 : R) (q : qpt) : Prop :=
  mat_der 3 (fun s => p_C (D s) q) (p_C D' q) t0 /\ heat_der (fun s => p_heat (D s)) (p_heat D') t0 q /\
  is_derive (fun s => p_h (D s) q) t0 (p_h D' q) /\ is_derive (fun s => p_off (D s) q) t0 (p_off D' q).
