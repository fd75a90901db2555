(** Specification for C13-C17, C61, C62. *)
From Coq Require Import Reals List Arith Bool.
From Verif Require Import Base Trans_Model.
Import ListNotations.
Open Scope R_scope.

(** ** C13: an append-only log of accepted steps *)
Definition entry : Type := (vec * vec * vec)%type.   (* state, velocity, acceleration *)
Record slog : Type := mkLog { cur : entry; accepted : list entry (* newest first *); before : nat -> entry }.
(** [back l i] for i >= 1: the entry accepted i steps ago, or what was stored before the first step *)
Definition back (l : slog) (i : nat) : entry :=
  match i with
  | O => cur l
  | S j => nth j (accepted l) (before l (i - length (accepted l)))
  end.
Definition new_entry (k : scheme) (dt : R) (l : slog) (x : vec) : entry :=
  let '(x0, v0, a0) := back l 1 in
  (x, update_velocity k dt x0 v0 a0 x, update_acceleration k dt x0 v0 a0 x).
Definition accept (l : slog) (e : entry) : slog := mkLog e (e :: accepted l) (before l).
Definition corrected (k : scheme) (l : slog) (d : vec) : entry :=
  let '(x, v, a) := cur l in
  if order2 k then (x, v, fun i => a i - d i) else (x, fun i => v i - d i, a).

Record sspec : Type := mkSpec { slg : slog; sslg : slog; stime : R; sdt : R }.
Definition sstep (k : scheme) (s : sspec) (o : top) : sspec :=
  let '(mkSpec l ls t d) := s in
  match o with
  | SetDt r => mkSpec l ls t r
  | SetInitial x v => mkSpec (mkLog (x, v, snd (cur l)) (accepted l) (before l)) ls t d
  | Eval x => mkSpec (mkLog (new_entry k d l x) (accepted l) (before l)) ls t d
  | Advance x incr => mkSpec (accept l (new_entry k d l x)) ls (if incr then t + d else t) d
  | Highest c incr => mkSpec (accept l (corrected k l c)) ls (if incr then t + d else t) d
  | AdvanceSens x => mkSpec l (accept ls (new_entry k d ls x)) (t + d) d
  | HighestSens c => mkSpec l (accept ls (corrected k ls c)) (t + d) d
  | Reattach => mkSpec (mkLog (fst (fst (cur l)), vzero, vzero) [] (fun _ => (vzero, vzero, vzero)))
                       (mkLog (vzero, vzero, vzero) [] (fun _ => (vzero, vzero, vzero))) t d
  end.
Definition start (x : vec) (t : R) : sspec :=
  let z := (vzero, vzero, vzero) in
  mkSpec (mkLog (x, vzero, vzero) [] (fun _ => z)) (mkLog z [] (fun _ => z)) t 0.

(** slot [i] of the stored vectors holds the entry [e]; accelerations only for second-order schemes *)
Definition holds (k : scheme) (h : hist) (i : nat) (e : entry) : Prop :=
  let '(x, v, a) := e in
  (forall d, hx h i d = x d) /\ (forall d, hv h i d = v d) /\
  (order2 k = true -> forall d, ha h i d = a d).

(** ** C14, C15: the time-integration relations *)
Definition newmark2 (beta gamma dt : R) (x0 v0 a0 x1 v1 a1 : vec) : Prop := forall i,
  x1 i = x0 i + dt * v0 i + dt^2 * ((1/2 - beta) * a0 i + beta * a1 i) /\
  v1 i = v0 i + dt * ((1 - gamma) * a0 i + gamma * a1 i).
Definition newmark1 (beta dt : R) (x0 v0 x1 v1 : vec) : Prop := forall i,
  x1 i = x0 i + dt * ((1 - beta) * v0 i + beta * v1 i).

(** ** C16: exact element Jacobians, as derivatives along every straight line *)
Definition along (x d : vec) (t : R) : vec := fun i => x i + t * d i.
Definition exact2 (e : elemops) : Prop :=
  (forall x v a dx dv da i, (i < nd e)%nat ->
     derivable_pt_lim (fun t => fm e (along x dx t) (along v dv t) (along a da t) i) 0
       (sum (nd e) (fun j => jmdd e x v a i j * da j + jmd e x v a i j * dv j + jm e x v a i j * dx j))) /\
  (forall x v dx dv i, (i < nd e)%nat ->
     derivable_pt_lim (fun t => fx e (along x dx t) (along v dv t) i) 0
       (sum (nd e) (fun j => jxd e x v i j * dv j + jx e x v i j * dx j))).
(** first-order elements: no acceleration, forcing does not depend on the velocity *)
Definition exact1 (e : elemops) : Prop :=
  (forall x v dx dv i, (i < nd e)%nat ->
     derivable_pt_lim (fun t => fm e (along x dx t) (along v dv t) vzero i) 0
       (sum (nd e) (fun j => jmd e x v vzero i j * dv j + jm e x v vzero i j * dx j))) /\
  (forall x v dx dv i, (i < nd e)%nat ->
     derivable_pt_lim (fun t => fx e (along x dx t) (along v dv t) i) 0
       (sum (nd e) (fun j => jx e x v i j * dx j))).
(** [J] is the derivative of the element residual [r] at the global vector [X] *)
Definition is_jacobian (e : elemops) (r : vec -> vec) (J : nat -> nat -> R) (X : vec) : Prop :=
  forall D i, (i < nd e)%nat ->
    derivable_pt_lim (fun t => r (along X D t) i) 0 (sum (nd e) (fun j => J i j * D (dofs e j))).
(** the matrix-free product of the element is exact *)
Definition exact_product (e : elemops) : Prop := forall x v a dx dv da i, (i < nd e)%nat ->
  jprod e x v a dx dv da i =
  sum (nd e) (fun j => jmdd e x v a i j * da j + (jmd e x v a i j + jxd e x v i j) * dv j +
                       (jm e x v a i j + jx e x v i j) * dx j).

(** an element that is linear: mass M, damping C, stiffness K, load p *)
Definition linear_elem (n : nat) (df : nat -> nat) (M C K : nat -> nat -> R) (p : vec) : elemops :=
  mkOps n df
    (fun x v a i => sum n (fun j => M i j * a j))
    (fun x v i => sum n (fun j => C i j * v j) + sum n (fun j => K i j * x j) - p i)
    (fun _ _ _ => M) (fun _ _ _ _ _ => 0) (fun _ _ _ _ _ => 0) (fun _ _ => C) (fun _ _ => K)
    (fun _ _ _ dx dv da i => sum n (fun j => M i j * da j + C i j * dv j + K i j * dx j)).
