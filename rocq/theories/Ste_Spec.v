(** What the dynamics of structures is expected to solve. *)
From Coq Require Import Reals.
From Coq Require Import List Arith Bool.
From Verif Require Import Base Trans_Model Trans_Spec Ste_Model.
Import ListNotations.
Open Scope R_scope.

(** d'Alembert: inertia, damping and internal force against the loads, which are written as residuals *)
Definition motion (e : selem) (th : spar) (x v a : vec) (i : nat) : R :=
  se_in e th x v a i + rt_f (se_dam e) th x v i + se_int e th x i + rt_f (se_side e) th x v i + rt_f (se_vol e) th x v i.
(** without inertia *)
Definition creep (e : selem) (th : spar) (x v : vec) (i : nat) : R :=
  rt_f (se_dam e) th x v i + se_int e th x i + rt_f (se_side e) th x v i + rt_f (se_vol e) th x v i.
Definition equilibrium (e : selem) (th : spar) (x : vec) (i : nat) : R :=
  se_int e th x i + rt_f (se_side e) th x vzero i + rt_f (se_vol e) th x vzero i.

(** the Jacobians of every term are its derivatives along every line *)
Definition exact_rt (m : nat) (t : rterm) (th : spar) : Prop := forall x v dx dv i, (i < m)%nat ->
  derivable_pt_lim (fun s => rt_f t th (along x dx s) (along v dv s) i) 0
    (sum m (fun j => rt_jd t th x v i j * dv j + rt_j t th x v i j * dx j)).
Definition exact_elem (e : selem) (th : spar) : Prop :=
  (forall x dx i, (i < se_n e)%nat ->
     derivable_pt_lim (fun s => se_int e th (along x dx s) i) 0 (sum (se_n e) (fun j => se_int_j e th x i j * dx j))) /\
  exact_rt (se_n e) (se_dam e) th /\ exact_rt (se_n e) (se_side e) th /\ exact_rt (se_n e) (se_vol e) th /\
  (forall x v a dx dv da i, (i < se_n e)%nat ->
     derivable_pt_lim (fun s => se_in e th (along x dx s) (along v dv s) (along a da s) i) 0
       (sum (se_n e) (fun j => se_in_jdd e th x v a i j * da j + se_in_jd e th x v a i j * dv j + se_in_j e th x v a i j * dx j))).
(** the linearised terms are their Jacobians times the perturbation *)
Definition exact_linear (e : selem) (th : spar) : Prop :=
  (forall x dx i, (i < se_n e)%nat -> se_int_l e th x dx i = sum (se_n e) (fun j => se_int_j e th x i j * dx j)) /\
  (forall t, t = se_side e \/ t = se_vol e -> forall x v dx dv i, (i < se_n e)%nat ->
     rt_l t th x v dx dv i = sum (se_n e) (fun j => rt_jd t th x v i j * dv j + rt_j t th x v i j * dx j)) /\
  (forall x v a dx dv da i, (i < se_n e)%nat -> se_in_l e th x v a dx dv da i =
     sum (se_n e) (fun j => se_in_jdd e th x v a i j * da j + se_in_jd e th x v a i j * dv j + se_in_j e th x v a i j * dx j)).
(** the derivative with respect to parameter [g] of every term is exact *)
Definition with_par (th : spar) (g : nat) (s : R) : spar := fun k => if (k =? g)%nat then s else th k.
Definition exact_param (e : selem) (th : spar) (g : nat) (x v a : vec) : Prop := forall i, (i < se_n e)%nat ->
  derivable_pt_lim (fun s => se_int e (with_par th g s) x i) (th g) (se_int_s e th g x i) /\
  (forall t, t = se_dam e \/ t = se_side e \/ t = se_vol e ->
     derivable_pt_lim (fun s => rt_f t (with_par th g s) x v i) (th g) (rt_s t th g x v i)) /\
  derivable_pt_lim (fun s => se_in e (with_par th g s) x v a i) (th g) (se_in_s e th g x v a i).
(** nothing moves, nothing resists motion *)
Definition passive_at_rest (e : selem) (th : spar) : Prop := forall x i, (i < se_n e)%nat ->
  se_in e th x vzero vzero i = 0 /\ rt_f (se_dam e) th x vzero i = 0.
