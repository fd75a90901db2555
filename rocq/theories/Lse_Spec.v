(** What the level-set element should compute: a scalar field given by nodal values, integrals being sums
    over quadrature points. *)
From Coq Require Import Reals.
From Coquelicot Require Import Coquelicot.
From Coq Require Import List Arith Bool.
From Verif Require Import Base Sens_Model Sens_Spec Lse_Model.
Import ListNotations.
Open Scope R_scope.

Definition integral (qs : list lpt) (g : lpt -> R) : R := total (fun q => lw q * g q) qs.
(** the field and its gradient at a quadrature point *)
Definition at_q (n : nat) (q : lpt) (u : vec) : R := sum n (fun a => lN q a * u a).
Definition grad_q (n : nat) (q : lpt) (u : vec) (j : nat) : R := sum n (fun a => ldN q a j * u a).
Definition len (d : nat) (v : nat -> R) : R := sqrt (sum d (fun j => v j * v j)).
Definition dotp (d : nat) (v w : nat -> R) : R := sum d (fun j => v j * w j).

(** constants are represented exactly by the shape functions *)
Definition partition (n d : nat) (q : lpt) : Prop :=
  sum n (lN q) = 1 /\ forall j, (j < d)%nat -> sum n (fun a => ldN q a j) = 0.
Definition positive (qs : list lpt) : Prop := qs <> [] /\ forall q, In q qs -> 0 < lw q.
(** nodal values that depend differentiably on a parameter *)
Definition history (n : nat) (t0 : R) (u : R -> vec) (du : vec) : Prop :=
  forall a, (a < n)%nat -> is_derive (fun t : R => u t a) t0 (du a).

(** Heaviside function, smoothed step and smoothed delta function *)
Definition step (x : R) : R := if Rlt_dec 0 x then 1 else 0.
Definition smooth_step (d x : R) : R := 1/2 + atan (x / d) / PI.
Definition smooth_delta (d x : R) : R := d / (PI * (d * d + x * x)).

(** ** Motion of the front *)
Section Front.
Variables (n dim : nat).
(** the front moves with the normal speed [s]: V = - s grad phi / |grad phi| *)
Definition normal_speed (s : R) (q : lpt) (u : vec) (j : nat) : R :=
  - s * grad_q n q u j / len dim (grad_q n q u).
(** reinitialisation: a smoothed sign of the reference field *)
Definition smooth_sign (r g : R) : R := r / sqrt (r * r + / 1000000 * (g * g)).
Definition reinit_speed (r : R) (q : lpt) (u : vec) (j : nat) : R :=
  let g := len dim (grad_q n q u) in
  if Rlt_dec (/ 1000000) g then smooth_sign r g * grad_q n q u j / g else 0.

(** upwind parameter and discontinuity capturing coefficient for the velocity V *)
Definition upwind (q : lpt) (V : nat -> R) : R :=
  if Rlt_dec (/ 1000000) (len dim V) then / sum n (fun a => Rabs (dotp dim V (ldN q a))) else 0.
Definition capture (q : lpt) (u : vec) (V : nat -> R) : R :=
  1/2 * Rabs (dotp dim V (grad_q n q u)) /
  sqrt (/ 1000000 + sum dim (fun i => dotp dim (lxi q i) (grad_q n q u) * dotp dim (lxi q i) (grad_q n q u))).
(** weighted residual of V . grad phi = s with test function a *)
Definition front_term (q : lpt) (u : vec) (V : nat -> R) (s : R) (a : nat) : R :=
  (lN q a + upwind q V * dotp dim V (ldN q a)) * (dotp dim V (grad_q n q u) - s)
  + capture q u V * dotp dim (ldN q a) (grad_q n q u).
(** the same operator with velocity and coefficients frozen at u, applied to shape function b *)
Definition front_tangent (q : lpt) (u : vec) (V : nat -> R) (a b : nat) : R :=
  (lN q a + upwind q V * dotp dim V (ldN q a)) * dotp dim V (ldN q b)
  + capture q u V * dotp dim (ldN q a) (ldN q b).
Definition rate_term (q : lpt) (V : nat -> R) (r : R) (a : nat) : R :=
  (lN q a + upwind q V * dotp dim V (ldN q a)) * r.
(** velocity and source of the two modes *)
Definition Vel (propagation : bool) (Vn : (nat -> R) -> R -> R) (ref : vec) (time : R) (u : vec) (q : lpt) : nat -> R :=
  if propagation then normal_speed (Vn (lx q) time) q u else reinit_speed (at_q n q ref) q u.
Definition Src (propagation : bool) (ref : vec) (u : vec) (q : lpt) : R :=
  if propagation then 0 else smooth_sign (at_q n q ref) (len dim (grad_q n q u)).
(** the field is not flat at the quadrature points *)
Definition not_flat (qs : list lpt) (u : vec) : Prop :=
  forall q, In q qs -> len dim (grad_q n q u) <> 0.
End Front.

(** ** Outputs *)
(** elements an output is evaluated on, over all processors *)
Definition counted (rs : list (list oelem)) : list oelem := filter o_here (concat rs).
(** sides on the level set of the elements it is evaluated on *)
Definition sides (rs : list (list oelem)) : list (list lpt * vec * vec) :=
  flat_map (fun e => match o_cut e, o_side e with true, Some s => [(s, o_sol e, o_dsol e)] | _, _ => [] end) (counted rs).

(** ** The interface *)
Definition parallel (v g : nat -> R) : Prop := exists c, forall i, (i < 3)%nat -> v i = c * g i.

(** ** Nearest point *)
(** an affine level set function *)
Definition affine (ls : point -> option R) (dls : point -> option (nat -> R)) (c : R) (g : nat -> R) : Prop :=
  forall x, ls x = Some (c + dotp 3 g x) /\ dls x = Some g.
(** a linear solver that is exact on the systems it can solve *)
Definition exact_solver (solve : matrix -> vec -> vec) : Prop :=
  forall g b, 0 < dotp 3 g g -> forall i, (i < 4)%nat -> sum 4 (fun j => coeffs g i j * solve (coeffs g) b j) = b i.
(** the element with other nodal values *)
Definition with_sol (e : oelem) (u : vec) : oelem := mkOe (o_here e) (o_cut e) (o_side e) (o_qs e) u (o_dsol e).
(** the foot of the perpendicular from p on the plane c + g . x = 0, and squared distance *)
Definition foot (c : R) (g p : nat -> R) : nat -> R := fun i => p i - (c + dotp 3 g p) / dotp 3 g g * g i.
Definition dist2 (x y : nat -> R) : R := dotp 3 (fun i => x i - y i) (fun i => x i - y i).
