(** What a reduction to a few modes is expected to deliver. *)
From Coq Require Import Reals.
From Coquelicot Require Import Coquelicot.
From Coq Require Import List Arith Bool.
From Verif Require Import Base Sens_Model Sens_Spec Rom_Model.
Import ListNotations.
Open Scope R_scope.

(** x^T m y, for a matrix in the local numbering of an element and global vectors *)
Definition form (ds : list nat) (m : matrix) (x y : vec) : R :=
  sum (length ds) (fun k => sum (length ds) (fun l => x (nth k ds O) * m k l * y (nth l ds O))).
(** work of a local force along a global displacement *)
Definition power (ds : list nat) (v x : vec) : R := sum (length ds) (fun k => x (nth k ds O) * v k).
(** the local solution *)
Definition state_at (base : option vec) (e : relem) : vec :=
  match base with Some X => fun k => X (nth k (rdofs e) O) | None => fun _ => 0 end.
(** the element's mass, damping and tangent stiffness: all terms proportional to acceleration, velocity and displacement *)
Definition tangent (q : qty) (th : params) (x : vec) (e : relem) : matrix := fun k l =>
  match q with
  | QMass => fst (fst (r_in e th x)) k l
  | QDamping => snd (fst (r_in e th x)) k l + fst (r_side e th x) k l + fst (r_vol e th x) k l
  | _ => r_int e th x k l + snd (r_in e th x) k l + snd (r_side e th x) k l + snd (r_vol e th x) k l
  end.
Definition is_matrix (q : qty) : Prop := q = QMass \/ q = QDamping \/ q = QStiffness.
(** the quadratic form of the whole structure *)
Definition structure_form (rs : list (list relem)) (q : qty) (th : params) (base : option vec) (x y : vec) : R :=
  total (fun e => form (rdofs e) (tangent q th (state_at base e) e) x y) (concat rs).
(** the dofs of an element are distinct and exist, and constraints refer to free dofs of the same element *)
Definition inside (S : sys) (e : relem) : Prop :=
  forall d r j c, In d (rdofs e) -> row S d = Some r -> In (j, c) r -> In j (rdofs e).
Definition fits (S : sys) (e : relem) : Prop :=
  NoDup (rdofs e) /\ (forall d, In d (rdofs e) -> (d < n S)%nat) /\ inside S e /\
  (forall d r j c, In d (rdofs e) -> row S d = Some r -> In (j, c) r -> row S j = None).
(** Contract: the sensitivities are the derivatives of the matrices along the path of the base solution, for the loads and the inertia
    at fixed solution and only if they do not depend on it. *)
Definition element_rates (th : params) (f : nat) (e : relem) (x dx : vec) : Prop :=
  forall p : R -> vec, (forall k, (k < length (rdofs e))%nat -> p (th f) k = x k) ->
    (forall k, (k < length (rdofs e))%nat -> is_derive (fun t => p t k) (th f) (dx k)) ->
    forall k l, (k < length (rdofs e))%nat -> (l < length (rdofs e))%nat ->
      let along (m : params -> vec -> matrix) := fun t => m (at_ th f t) (p t) k l in
      is_derive (along (r_int e)) (th f) (r_dint e th f x k l + r_jds e th x dx k l) /\
      is_derive (along (fun a b => fst (fst (r_in e a b)))) (th f) (fst (fst (r_din e th f x)) k l) /\
      is_derive (along (fun a b => snd (fst (r_in e a b)))) (th f) (snd (fst (r_din e th f x)) k l) /\
      is_derive (along (fun a b => snd (r_in e a b))) (th f) (snd (r_din e th f x) k l) /\
      is_derive (along (fun a b => fst (r_side e a b))) (th f) (fst (r_dside e th f x) k l) /\
      is_derive (along (fun a b => snd (r_side e a b))) (th f) (snd (r_dside e th f x) k l) /\
      is_derive (along (fun a b => fst (r_vol e a b))) (th f) (fst (r_dvol e th f x) k l) /\
      is_derive (along (fun a b => snd (r_vol e a b))) (th f) (snd (r_dvol e th f x) k l).
(** the displacement with generalised coordinates q *)
Definition modal (nb : nat) (q : vec) (basis : nat -> vec) : vec := fun d => sum nb (fun i => q i * basis i d).
