(** Specification of the homogenised density. *)
From Coq Require Import Reals List Arith Bool.
From Coquelicot Require Import Coquelicot.
From Verif Require Import Base Sens_Model Lse_Model Lse_Spec Hom_Model.
Import ListNotations.
Open Scope R_scope.

(** the average of the smoothed step of the level set function over an element *)
Definition average_step (w : R) (e : helem) (u : vec) (v : R) : Prop :=
  v * integral (he_qs e) (fun _ => 1) = integral (he_qs e) (fun q => smooth_step w (at_q (he_n e) q u)).
(** elements have different ids *)
Definition distinct (es : list helem) : Prop := NoDup (map he_id es).
(** no change of the fractions / of the sensitivities *)
Definition frac_quiet (ops : list hop) : Prop := forall o, In o ops -> match o with HInit _ | HClear => False | _ => True end.
Definition sens_quiet (f : nat) (ops : list hop) : Prop :=
  forall o, In o ops -> match o with HSens g _ _ => g <> f | HClearSens => False | _ => True end.
(** outside the influence of a parameter the level set function does not depend on it *)
Definition sound_influence (influence : nat -> helem -> bool) (f : nat) (dphi : helem -> vec) : Prop :=
  forall e, influence f e = false -> forall a, (a < he_n e)%nat -> dphi e a = 0.
