(** What the stress properties talk about, independent of how the code computes it. *)
From Coq Require Import List NArith ZArith Reals.
From Verif Require Import Base Stre_Model.
Import ListNotations.
Open Scope R_scope.

(** The von Mises stress of the tensor (xx, yy, zz, xy, yz, zx). *)
Definition mises (s : nat -> R) : R :=
  sqrt (((s 0%nat - s 1%nat) ^ 2 + (s 1%nat - s 2%nat) ^ 2 + (s 2%nat - s 0%nat) ^ 2) / 2
        + 3 * (s 3%nat ^ 2 + s 4%nat ^ 2 + s 5%nat ^ 2)).

(** All points of all ranks. *)
Definition all_points (rs : list store) : list datum := flat_map points rs.

(** Data moving with a parameter: each point has its weight, its stress as a function of the
    parameter, and the stress derivative stored for it. *)
Record mpoint := mkMp { m_J : R; m_s : R -> nat -> R; m_ds : nat -> R }.
Definition moving := list (list (N * list mpoint)).
Definition mpoints (M : moving) : list mpoint := flat_map (flat_map snd) M.
(** The stored data at parameter value [t], the sensitivities being those for parameter or element
    dof [f]; the other parameters and dofs do not move the stress. *)
Definition at_ (f : nat) (t : R) (m : mpoint) : datum :=
  mkDatum (m_s m t) (m_J m) (fun g => if Nat.eqb g f then Some (m_ds m) else None)
    (fun g => if Nat.eqb g f then m_ds m else fun _ => 0).
Definition data_at (f : nat) (M : moving) (t : R) : list store :=
  map (map (fun el : N * list mpoint => (fst el, map (at_ f t) (snd el)))) M.
(** The stored derivatives are the derivatives of the stresses. *)
Definition differentiable (m : mpoint) (t0 : R) : Prop :=
  forall k, (k < 6)%nat -> derivable_pt_lim (fun t => m_s m t k) t0 (m_ds m k).

(** The output, as a function of the parameter. *)
Definition value (kd : kind) (k : coef) (rs : list store) : R :=
  match functional kd k rs with Ok o => t_norm o | Fault _ => 0 end.
Definition near (t0 : R) (P : R -> Prop) : Prop := exists d, 0 < d /\ forall t, Rabs (t - t0) < d -> P t.

(** Where x^y is differentiable in x with value and derivative that pow can compute: positive base,
    integral exponent away from zero, positive integral exponent. *)
Definition smooth_pow (x y : R) : Prop := 0 < x \/ (x <> 0 /\ exists z, y = IZR z) \/ exists n, y = INR (S n).

(** The von Mises stress of the point is differentiable at [t0]: either it does not vanish, or its
    derivative there is zero. *)
Definition moves_well (m : mpoint) (t0 : R) : Prop :=
  differentiable m t0 /\ (mises (m_s m t0) = 0 -> derivable_pt_lim (fun t => mises (m_s m t)) t0 0).
(** The point's contribution is differentiable: the stress is not zero unless the exponent is at least
    one; and for the p-norm, the weight power is differentiable and not exactly at the limit of the
    argument of exp. *)
Definition regular (kd : kind) (k : coef) (e : R) : Prop :=
  match kd with
  | KS => True
  | Ramp => 0 < e \/ 1 <= k_p k
  | PNorm => (0 < e \/ 1 <= k_p k) /\ smooth_pow ((e - k_s0 k) / k_s0 k) (k_w k) /\
             forall v, cpow ((e - k_s0 k) / k_s0 k) (k_w k) = Ok v -> k_rho k * v <> exp_lim
  end.

(** A layer of material of thickness proportional to [t] at the boundary: every boundary point
    enters with its stress and with [t] times its normal-velocity weight. *)
Definition layer (t : R) (bs : list store) : list store :=
  map (map (fun el : N * list datum => (fst el, map (fun d => mkDatum (d_s d) (t * d_J d) (d_ds d) (d_dX d)) (snd el)))) bs.

(** ** Call histories *)
(** The points added since the last clear(), and the coefficients last set. *)
Definition added (l : list call) : list datum :=
  fold_left (fun acc c => match c with CAdd _ _ d => acc ++ [d] | CClear => [] | _ => acc end) l [].
(** The point numbers given for element [e] since the last clear(). *)
Definition numbers (e : N) (l : list call) : list nat :=
  fold_left (fun acc c => match c with CAdd e' qp _ => if N.eqb e' e then acc ++ [qp] else acc | CClear => [] | _ => acc end) l [].
Definition last_coef (l : list call) (k0 : coef) : coef :=
  fold_left (fun k c => match c with CCoef k' => k' | _ => k end) l k0.
(** Between a call of output_total() and the next clear(), the coefficients are not set and
    zero_for_analysis() is not called. *)
Fixpoint quiet (done : bool) (l : list call) : Prop :=
  match l with
  | [] => True
  | CCoef _ :: t | CZero :: t => done = false /\ quiet done t
  | CTotal :: t => quiet true t
  | CClear :: t => quiet false t
  | _ :: t => quiet done t
  end.
