(** What an element of the harmonic analysis of a flow is expected to give. *)
From Coq Require Import List Arith Bool Reals.
From Verif Require Import Base Flui_Model Cfe_Model Fdf_Model Fda_Model.
Import ListNotations.
Open Scope R_scope.

(** complex entry (v, k) of J z, with sums over all unknowns of the element *)
Definition times_re (d nphi : nat) (J : cmat) (z : cvec) (v k : nat) : R :=
  sum (d + 2) (fun i => sum nphi (fun a => fst J v k i a * fst z i a - snd J v k i a * snd z i a)).
Definition times_im (d nphi : nat) (J : cmat) (z : cvec) (v k : nat) : R :=
  sum (d + 2) (fun i => sum nphi (fun a => fst J v k i a * snd z i a + snd J v k i a * fst z i a)).
(** the base motion turns the normal of no wall *)
Definition unturned (sides : list (list fpt * fdside)) : Prop :=
  forall qps b, In (qps, FdSlip b) sides -> forall q i, In q qps -> (i < 3)%nat -> at_pt (fs_rot b) q i = 0.
(** no wall oscillates *)
Definition unmoved (sides : list (list fpt * fdside)) : Prop := forall qps b, In (qps, FdSlip b) sides -> fs_dw b = None.
(** calls since the object was made *)
Fixpoint after (cs : list fdcall) (o : fdops) : outcome fdops :=
  match cs with [] => Ok o | c :: cs => o' <- ops_call c o ;; after cs o' end.
