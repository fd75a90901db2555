(** What the stress fields are expected to show. *)
From Coq Require Import List Arith Reals.
From Verif Require Import Base Sens_Model Stre_Spec Sfd_Model.
Import ListNotations.
Open Scope R_scope.

(** the value of largest modulus, with its sign; the largest value *)
Definition peak (l : list R) (v : R) : Prop := In v l /\ forall w, In w l -> Rabs w <= Rabs v.
Definition largest (l : list R) (v : R) : Prop := In v l /\ forall w, In w l -> w <= v.
(** variables 0-5: strains, 6-11: stresses, 12: von Mises stress (mises: area Stre) *)
Definition shows (pts : list spoint) (v : row13) : Prop :=
  (forall i, (i < 6)%nat -> peak (map (fun q => sp_strain q i) pts) (v i)) /\
  (forall i, (i < 6)%nat -> peak (map (fun q => sp_stress q i) pts) (v (6 + i)%nat)) /\
  largest (map (fun q => mises (sp_stress q)) pts) (v 12%nat).
Definition mesh_elems (rs : list (list selem * list spoint)) : list selem := concat (map fst rs).
Definition restrict (ds : list nat) (X : vec) : vec := fun k => X (nth k ds O).
Definition elem_points (th : params) (X : vec) (e : selem) : list spoint := se_pts e th (restrict (se_dofs e) X).
Definition cut_points (X : vec) (e : scut) : list spoint :=
  flat_map (fun s => snd s (match sc_fac e with Some x => x | None => restrict (sc_dofs e) X end)) (sc_hi e).
(** the last element a process looked at *)
Definition kept (th : params) (X : vec) (r : list selem * list spoint) : list spoint :=
  match rev (fst r) with [] => snd r | e :: _ => if se_part e then elem_points th X e else [] end.
