(** What the linearised flow in time is expected to be. *)
From Coq Require Import Reals.
From Coquelicot Require Import Coquelicot.
From Coq Require Import List Arith Bool.
From Verif Require Import Base Flui_Model Cfe_Model Fdf_Model Cft_Model.
Import ListNotations.
Open Scope R_scope.

(** a wall whose velocity and rotation change with the rates [mo]; a function that is absent counts as zero *)
Definition wall_moves (b : R -> slip) (t0 : R) (mo : motion) : Prop :=
  forall q i, is_derive (fun t => at_pt (sl_vel (b t)) q i : R) t0 (moved_by (sl_vel (b t0)) (mo_vel mo) q i) /\
              is_derive (fun t => at_pt (sl_rot (b t)) q i : R) t0 (moved_by (sl_rot (b t0)) (mo_rot mo) q i).
(** a condition that moves if it is a slip wall, and stays as it is otherwise *)
Definition side_moves (c : R -> fside) (t0 : R) (mo : motion) : Prop :=
  (exists b, (forall t, c t = SlipWall (b t)) /\ wall_moves b t0 mo) \/
  (forall t, c t = c t0) /\ forall b, c t0 <> SlipWall b.
Definition mside : Type := list fpt * (R -> fside) * motion.
Definition sides_at (l : list mside) (t : R) : list (list fpt * fside) := map (fun s => (fst (fst s), snd (fst s) t)) l.
Definition lin_at (l : list mside) (t : R) : list (list fpt * fside * motion) := map (fun s => (fst (fst s), snd (fst s) t, snd s)) l.
(** nothing moves *)
Definition at_standstill (mo : motion) : Prop := (forall q i, mo_vel mo q i = 0) /\ (forall q i, mo_rot mo q i = 0).
