(** What an eigenvalue analysis and its sensitivities should deliver. *)
From Coq Require Import Reals.
From Coquelicot Require Import Coquelicot.
From Coq Require Import List Arith Bool.
From Verif Require Import Base Sens_Model Sens_Spec Eig_Model.
Import ListNotations.
Open Scope R_scope.

(** (lam, x) satisfies A x = lam B x in the rows of the free dofs and vanishes on the others *)
Definition eigenpair (m : nat) (A B : matrix) (free : nat -> Prop) (lam : R) (x : vec) : Prop :=
  (forall i, (i < m)%nat -> ~ free i -> x i = 0) /\
  (forall i, (i < m)%nat -> free i -> sum m (fun j => A i j * x j) = lam * sum m (fun j => B i j * x j)).
Definition quad_form (m : nat) (M : matrix) (x : vec) : R := sum m (fun i => sum m (fun j => x i * M i j * x j)).

(** the dofs the eigenproblem is posed on *)
Definition free_dofs (s : esys) (i : nat) : Prop :=
  match condensed s with None => True | Some l => In i l end.
Definition condensed_ok (p : prob) (s : esys) : Prop :=
  forall l, condensed s = Some l -> NoDup l /\ forall i, In i l -> (i < n (dofs p))%nat.

(** the solver returns real eigenpairs of the pencil it is given *)
Definition exact_solver (slepc : matrix -> option matrix -> nat -> nat -> list ((R * R) * vec)) : Prop :=
  forall A B m nev mu y, In (mu, y) (slepc A (Some B) m nev) ->
    snd mu = 0 /\ forall i, (i < m)%nat ->
      sum m (fun j => A i j * y j) = fst mu * sum m (fun j => B i j * y j).

(** the problem with parameter [f] set to [t] and base solution [b t] *)
Definition along (p : prob) (f : nat) (b : R -> vec) (t : R) : prob :=
  mkProb (dofs p) (els p) (at_ (th p) f t)
    (match base p with Some _ => Some (b t) | None => None end) (base_sens p).
(** the element routines deliver the derivatives of their matrices along that path *)
Definition matrices_differentiable (p : prob) (f : nat) (b : R -> vec) : Prop :=
  forall e k l, In e (els p) -> (k < length (ee_dofs e))%nat -> (l < length (ee_dofs e))%nat ->
    is_derive (fun t => ee_A e (at_ (th p) f t) (local_base (base (along p f b t)) (ee_dofs e)) k l) (th p f)
      (ee_dA e (th p) f (has_base p) (local_base (base p) (ee_dofs e)) (sens_local p (ee_dofs e)) k l) /\
    is_derive (fun t => ee_B e (at_ (th p) f t) (local_base (base (along p f b t)) (ee_dofs e)) k l) (th p f)
      (ee_dB e (th p) f (has_base p) (local_base (base p) (ee_dofs e)) (sens_local p (ee_dofs e)) k l).
(** at the parameter value of the analysis the path passes through the problem that was analysed *)
Definition path_through (p : prob) (f : nat) (b : R -> vec) : Prop :=
  forall e x y, In e (els p) -> ee_A e (at_ (th p) f (th p f)) (local_base (base (along p f b (th p f))) (ee_dofs e)) x y
    = ee_A e (th p) (local_base (base p) (ee_dofs e)) x y /\
    ee_B e (at_ (th p) f (th p f)) (local_base (base (along p f b (th p f))) (ee_dofs e)) x y
    = ee_B e (th p) (local_base (base p) (ee_dofs e)) x y.
Definition symmetric_elements (p : prob) : Prop :=
  forall e k l, In e (els p) -> (k < length (ee_dofs e))%nat -> (l < length (ee_dofs e))%nat ->
    ee_A e (th p) (local_base (base p) (ee_dofs e)) k l = ee_A e (th p) (local_base (base p) (ee_dofs e)) l k /\
    ee_B e (th p) (local_base (base p) (ee_dofs e)) k l = ee_B e (th p) (local_base (base p) (ee_dofs e)) l k.
