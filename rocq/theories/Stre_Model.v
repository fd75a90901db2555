(** Model of the stress outputs: /repo/src/elasticity/stress_output_base.{h,cpp},
    ks_stress_output.cpp and smooth_ramp_stress_output.cpp.
    Numbers are exact reals.  A value that is infinite or not a number in C++ is the error value
    [Fault DivByZero].  Strains, point locations and the physics elements that compute the stresses
    are not modelled: stresses and their derivatives are data. *)
From Coq Require Import List Arith NArith ZArith Lia Reals Lra Bool.
From Verif Require Import Base RBool.
Import ListNotations.
Open Scope R_scope.

(** ** pow of <cmath> on finite arguments, where the result is finite *)
Definition cpow (x y : R) : outcome R :=
  if rltb 0 x then Ok (Rpower x y)
  else if reqb x 0 then
    if rltb 0 y then Ok 0 else if reqb y 0 then Ok 1 else Fault DivByZero
  else if reqb (IZR (Int_part y)) y then Ok (powerRZ x (Int_part y)) else Fault DivByZero.
(** Division and log. *)
Definition rdiv (a b : R) : outcome R := if reqb b 0 then Fault DivByZero else Ok (a / b).
Definition clog (x : R) : outcome R := if rltb 0 x then Ok (ln x) else Fault DivByZero.

(** ** Data at a quadrature point *)
(** stress_output_base.cpp L37-53, L88-135.  [d_ds f] is the stored sensitivity for parameter [f];
    [d_dX j] is column [j] of the stored derivative with respect to the element dofs. *)
Record datum := mkDatum { d_s : nat -> R; d_J : R; d_ds : nat -> option (nat -> R); d_dX : nat -> nat -> R }.

(** L188-194 without the outer power. *)
Definition quad (s : nat -> R) : R :=
  (/ 2) * ((s 0%nat - s 1%nat) * (s 0%nat - s 1%nat) + (s 1%nat - s 2%nat) * (s 1%nat - s 2%nat) + (s 2%nat - s 0%nat) * (s 2%nat - s 0%nat))
  + 3 * (s 3%nat * s 3%nat + s 4%nat * s 4%nat + s 5%nat * s 5%nat).
(** L182-195 von_Mises_stress *)
Definition von_mises (s : nat -> R) : outcome R := cpow (quad s) (/ 2).
(** L261-268 and L220-227: the derivative for a given stress derivative. *)
Definition dmises (s ds : nat -> R) : outcome R :=
  let p := quad s in
  if rltb 0 (Rabs p) then
    r <- cpow p (- / 2) ;;
    Ok ((((ds 0%nat - ds 1%nat) * (s 0%nat - s 1%nat) + (ds 1%nat - ds 2%nat) * (s 1%nat - s 2%nat) + (ds 2%nat - ds 0%nat) * (s 2%nat - s 0%nat))
         + 6 * (ds 3%nat * s 3%nat + ds 4%nat * s 4%nat + ds 5%nat * s 5%nat)) * (/ 2) * r)
  else Ok 0.
(** L235-271 dvon_Mises_stress_dp *)
Definition dmises_dp (d : datum) (f : nat) : outcome R :=
  match d_ds d f with None => Ok 0 | Some ds => dmises (d_s d) ds end.
(** L199-230 dvon_Mises_stress_dX, entry [j] *)
Definition dmises_dX (d : datum) (j : nat) : outcome R := dmises (d_s d) (d_dX d j).

(** ** Stored data: _stress_data of one rank, a map from element id to the points of the element *)
Definition store := list (N * list datum).
Definition points (t : store) : list datum := flat_map snd t.

(** Loop over points with two accumulated sums. *)
Fixpoint sum2 (term : datum -> outcome (R * R)) (l : list datum) (acc : R * R) : outcome (R * R) :=
  match l with
  | [] => Ok acc
  | d :: t => x <- term d ;; sum2 term t (fst acc + fst x, snd acc + snd x)
  end.
(** comm().sum: every rank gets the sum over the ranks.  [_skip_comm_sum] is taken to be false. *)
Fixpoint over_ranks (f : store -> outcome (R * R)) (rs : list store) : outcome (R * R) :=
  match rs with
  | [] => Ok (0, 0)
  | t :: r => a <- f t ;; b <- over_ranks f r ;; Ok (fst a + fst b, snd a + snd b)
  end.

(** L246-252 set_aggregation_coefficients; L281 _exp_arg_lim *)
Record coef := mkCoef { k_p : R; k_w : R; k_rho : R; k_s0 : R }.
Definition exp_lim : R := 100.

(** The three kinds of output. *)
Inductive kind := PNorm | KS | Ramp.
(** _sigma_vm_int, _JxW_val, _sigma_vm_p_norm *)
Record totals := mkTot { t_int : R; t_J : R; t_norm : R }.

(** stress_output_base.cpp L889-893: the weight of a point. *)
Definition weight (k : coef) (e : R) : outcome R :=
  sp <- cpow ((e - k_s0 k) / k_s0 k) (k_w k) ;;
  Ok (if rltb exp_lim (k_rho k * sp) then exp exp_lim else exp (k_rho k * sp)).
(** stress_output_base.cpp L884-895; ks L83-89; smooth_ramp L85-91 *)
Definition term (kd : kind) (k : coef) (d : datum) : outcome (R * R) :=
  e <- von_mises (d_s d) ;;
  match kd with
  | PNorm => w <- weight k e ;; y <- cpow (e / k_s0 k) (k_p k) ;; Ok (y * w * d_J d, w * d_J d)
  | KS => Ok (exp (k_p k * (e - k_s0 k) / k_s0 k) * d_J d, d_J d)
  | Ramp => y <- cpow (e / k_s0 k) (k_p k) ;; i <- rdiv 1 (k_p k) ;; z <- cpow (1 + y) i ;; Ok (z * d_J d, d_J d)
  end.
(** stress_output_base.cpp L852-909; ks L53-103; smooth_ramp L55-105: functional_for_all_elems.
    The assertions on the mode flags are those of the caller below. *)
Definition functional (kd : kind) (k : coef) (rs : list store) : outcome totals :=
  assert_ (rltb 0 (k_s0 k))
  (s <- over_ranks (fun t => sum2 (term kd k) (points t) (0, 0)) rs ;;
   match kd with
   | PNorm => m <- rdiv (fst s) (snd s) ;; i <- rdiv 1 (k_p k) ;; y <- cpow m i ;;
              Ok (mkTot (fst s) (snd s) (k_s0 k * y))
   | KS => m <- rdiv (fst s) (snd s) ;; i <- rdiv 1 (k_p k) ;; y <- clog m ;;
           Ok (mkTot (fst s) (snd s) (i * y))
   | Ramp => Ok (mkTot (fst s) (snd s) (fst s - snd s))
   end).

(** ** Sensitivity *)
(** stress_output_base.cpp L1016-1037; ks L140-144; smooth_ramp L141-147: contribution of a point
    to num_sens and denom_sens, for a given derivative [de] of the von Mises stress. *)
Definition sens_term (kd : kind) (k : coef) (d : datum) (de : R) : outcome (R * R) :=
  e <- von_mises (d_s d) ;;
  let x := e / k_s0 k in
  let z := (e - k_s0 k) / k_s0 k in
  match kd with
  | PNorm =>
      sp <- cpow x (k_p k) ;; sp1 <- cpow x (k_p k - 1) ;;
      sw <- cpow z (k_w k) ;; sw1 <- cpow z (k_w k - 1) ;;
      if rltb exp_lim (k_rho k * sw) then
        Ok (k_p k * sp1 * exp exp_lim * de / k_s0 k * d_J d, 0)
      else
        let ex := exp (k_rho k * sw) in
        Ok (de / k_s0 k * d_J d * ex * (k_p k * sp1 + sp * k_rho k * k_w k * sw1),
            ex * k_rho k * k_w k * sw1 * de / k_s0 k * d_J d)
  | KS => Ok (k_p k * de / k_s0 k * exp (k_p k * (e - k_s0 k) / k_s0 k) * d_J d, 0)
  | Ramp =>
      y <- cpow x (k_p k) ;; i <- rdiv 1 (k_p k) ;; a <- cpow (1 + y) (i - 1) ;; b <- cpow x (k_p k - 1) ;;
      Ok (a * b * de / k_s0 k * d_J d, 0)
  end.
(** L1041-1042; ks L147 and L193-194; smooth_ramp: the value from the two sums and the stored totals. *)
Definition assemble (kd : kind) (k : coef) (o : totals) (s : R * R) : outcome R :=
  match kd with
  | PNorm =>
      m <- rdiv (t_int o) (t_J o) ;; i <- rdiv 1 (k_p k) ;; y <- cpow m (i - 1) ;;
      a <- rdiv (fst s) (t_J o) ;; b <- rdiv (t_int o) (t_J o * t_J o) ;;
      Ok (k_s0 k / k_p k * y * (a - b * snd s))
  | KS =>
      m <- rdiv (t_int o) (t_J o) ;; i <- rdiv 1 (k_p k) ;; y <- rdiv i m ;;
      a <- rdiv (fst s) (t_J o) ;; b <- rdiv (t_int o) (t_J o * t_J o) ;;
      Ok (y * (a - b * snd s))
  | Ramp => Ok (fst s - snd s)
  end.
(** functional_sensitivity_for_elem, stress_output_base.cpp L979-1043; ks L109-148; smooth_ramp L111-149. *)
Definition sens_elem (kd : kind) (k : coef) (o : totals) (f : nat) (l : list datum) : outcome R :=
  assert_ (rltb 0 (k_s0 k))
  (s <- sum2 (fun d => de <- dmises_dp d f ;; sens_term kd k d de) l (0, 0) ;; assemble kd k o s).
(** functional_state_derivartive_for_elem, entry [j], stress_output_base.cpp L1105-1172; ks L201-242;
    smooth_ramp L197-237. *)
Definition dX_elem (kd : kind) (k : coef) (o : totals) (j : nat) (l : list datum) : outcome R :=
  assert_ (rltb 0 (k_s0 k))
  (s <- sum2 (fun d => de <- dmises_dX d j ;; sens_term kd k d de) l (0, 0) ;; assemble kd k o s).
(** Contribution of a boundary point ([d_J] is JxW_Vn): stress_output_base.cpp L1083-1094; ks L186-190;
    smooth_ramp L185-189. *)
Definition bnd_elem (kd : kind) (k : coef) (o : totals) (l : list datum) : outcome R :=
  assert_ (rltb 0 (k_s0 k)) (s <- sum2 (term kd k) l (0, 0) ;; assemble kd k o s).

(** Sum over the elements of the map. *)
Fixpoint sum_elems (f : list datum -> outcome R) (t : store) : outcome R :=
  match t with
  | [] => Ok 0
  | (_, l) :: r => a <- f l ;; b <- sum_elems f r ;; Ok (a + b)
  end.
Fixpoint sum_ranks (f : store -> outcome R) (rs : list store) : outcome R :=
  match rs with
  | [] => Ok 0
  | t :: r => a <- f t ;; b <- sum_ranks f r ;; Ok (a + b)
  end.
(** functional_sensitivity_for_all_elems L914-941 and functional_boundary_sensitivity_for_all_elems
    L947-974 *)
Definition sens_total (kd : kind) (k : coef) (o : totals) (f : nat) (rs : list store) : outcome R :=
  sum_ranks (sum_elems (sens_elem kd k o f)) rs.
Definition bnd_total (kd : kind) (k : coef) (o : totals) (rs : list store) : outcome R :=
  sum_ranks (sum_elems (bnd_elem kd k o)) rs.
(** L444-457 output_sensitivity_total.  [topo] is is_topology_parameter(). *)
Definition sensitivity_total (kd : kind) (k : coef) (o : totals) (f : nat) (topo : bool) (rs bs : list store) : outcome R :=
  v <- sens_total kd k o f rs ;;
  if topo then b <- bnd_total kd k o bs ;; Ok (v + b) else Ok v.

(** L716-742 get_maximum_von_mises_stress *)
Fixpoint max_points (l : list datum) (m : R) : outcome R :=
  match l with
  | [] => Ok m
  | d :: t => e <- von_mises (d_s d) ;; max_points t (if rltb m e then e else m)
  end.
Fixpoint max_stress (rs : list store) : outcome R :=
  match rs with
  | [] => Ok 0
  | t :: r => a <- max_points (points t) 0 ;; b <- max_stress r ;; Ok (Rmax a b)
  end.

(** ** The object and its calls, on one rank *)
Record out := mkOut { o_kind : kind; o_coef : coef; o_init : bool; o_plot : bool; o_tot : totals; o_data : store; o_bnd : store }.
Definition tot0 : totals := mkTot 0 0 0.
(** L275-288; sigma0 is zero by default. *)
Definition out0 (kd : kind) : out := mkOut kd (mkCoef 2 1 1 0) false false tot0 [] [].

(** std::map insertion keeps the entries sorted; the position does not matter here, the new
    element goes last. *)
Fixpoint add_point (t : store) (e : N) (qp : nat) (d : datum) : outcome store :=
  match t with
  | [] => Ok [(e, [d])]
  | (e', l) :: r =>
      if (e =? e')%N then assert_ (Nat.eqb qp (length l)) (Ok ((e', l ++ [d]) :: r))
      else r' <- add_point r e qp d ;; Ok ((e', l) :: r')
  end.
Fixpoint find_elem (t : store) (e : N) : outcome (list datum) :=
  match t with [] => Fault AssertFailed | (e', l) :: r => if (e =? e')%N then Ok l else find_elem r e end.

(** Calls that return nothing. *)
Inductive call :=
| CCoef (k : coef)                                   (* set_aggregation_coefficients, L246-252 *)
| CPlot (b : bool)                                   (* set_stress_plot_mode *)
| CZero                                              (* zero_for_analysis, L302-307 *)
| CAdd (e : N) (qp : nat) (d : datum)                (* evaluate, L319-331, for one point: L613-653 *)
| CTotal                                             (* output_total, L415-424 *)
| CClear.                                            (* clear, L519-566 *)
Definition do_call (c : call) (o : out) : outcome out :=
  match c with
  | CCoef k => Ok (mkOut (o_kind o) k (o_init o) (o_plot o) (o_tot o) (o_data o) (o_bnd o))
  | CPlot b => Ok (mkOut (o_kind o) (o_coef o) (o_init o) b (o_tot o) (o_data o) (o_bnd o))
  | CZero => Ok (mkOut (o_kind o) (o_coef o) (o_init o) (o_plot o) tot0 (o_data o) (o_bnd o))
  | CAdd e qp d =>
      assert_ (negb (o_init o))
      (t <- add_point (o_data o) e qp d ;; Ok (mkOut (o_kind o) (o_coef o) (o_init o) (o_plot o) (o_tot o) t (o_bnd o)))
  | CTotal =>
      assert_ (negb (o_plot o))
      (if o_init o then Ok o
       else t <- functional (o_kind o) (o_coef o) [o_data o] ;;
            Ok (mkOut (o_kind o) (o_coef o) true (o_plot o) t (o_data o) (o_bnd o)))
  | CClear => Ok (mkOut (o_kind o) (o_coef o) false false tot0 [] [])
  end.
Fixpoint do_calls (l : list call) (o : out) : outcome out :=
  match l with [] => Ok o | c :: t => o1 <- do_call c o ;; do_calls t o1 end.
(** The value returned by output_total() in this state. *)
Definition output_total (o : out) : outcome R := o1 <- do_call CTotal o ;; Ok (t_norm (o_tot o1)).
