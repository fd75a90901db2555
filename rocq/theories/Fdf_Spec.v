(** What the harmonic analysis of a flow is expected to compute. *)
From Coq Require Import List Arith Bool Reals.
From Verif Require Import Base Flui_Model Cfe_Model Fdf_Model.
Import ListNotations.
Open Scope R_scope.

(** the real motion that a complex amplitude stands for, at phase p: the real part of z e^(ip) *)
Definition at_phase (re im p : R) : R := re * cos p - im * sin p.
Definition moving_at (z : cvec) (p : R) : evec := fun v k => at_phase (fst z v k) (snd z v k) p.
Definition turned (a : v3) (p : R) : vec := fun i => at_phase (fst a i) (snd a i) p.
(** flux through a wall: steady velocity wd of the wall, velocity wt of its small motion, in the time scaled by b; change dn of the normal *)
Definition moving_flux (d : nat) (b : R) (ni wd wt dn : vec) (s : prim) (U : vec) (v : nat) : R :=
  let un := b * (dot3 wd (vplus ni dn) - dot3 (uvec d s) dn) + dot3 wt (vplus ni dn) in
  un * U v + (if Nat.eqb v (d + 1) then un * p_p s else 0) + (if (Nat.ltb 0 v && Nat.leb v d)%bool then b * p_p s * ni (v - 1)%nat else 0).
(** velocity of the wall that moves by a e^(ip): the real part of i om a e^(ip) *)
Definition swing (om : R) (a : v3) (p : R) : vec := fun i => om * at_phase (- snd a i) (fst a i) p.
Definition no_wall (sc : list fpt * fdside) : Prop := match snd sc with FdSlip _ => False | _ => True end.
