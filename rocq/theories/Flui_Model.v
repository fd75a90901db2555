(** Model of the compressible flow kernel: /repo/src/fluid/primitive_fluid_solution.cpp,
    small_disturbance_primitive_fluid_solution.cpp, flight_condition.h, gas_property.h and
    fluid_elem_base.cpp (states, fluxes and their Jacobians).
    Numbers are reals; a result that is not a finite number is a fault.  A dense matrix is a function of
    two indices; assignments to it are checked against its size [n1].  Vectors of the conservative
    variables are functions of the index. *)
From Coq Require Import List Arith Bool Reals.
From Verif Require Import Base RBool.
Import ListNotations.
Open Scope R_scope.

(** ** Dense matrices *)
Definition vec := nat -> R.
Definition mx := nat -> nat -> R.
Definition mx0 : mx := fun _ _ => 0.
Definition mput (m : mx) (i j : nat) (v : R) : mx := fun a b => if (Nat.eqb a i && Nat.eqb b j)%bool then v else m a b.
Definition vput (x : vec) (i : nat) (v : R) : vec := fun a => if Nat.eqb a i then v else x a.
(** Assignments m(i,j) = v, in order. *)
Fixpoint writes (n : nat) (l : list (nat * nat * R)) (m : mx) : outcome mx :=
  match l with
  | [] => Ok m
  | (i, j, v) :: r => if (Nat.ltb i n && Nat.ltb j n)%bool then writes n r (mput m i j v) else Fault OutOfBounds
  end.
Fixpoint vwrites (n : nat) (l : list (nat * R)) (x : vec) : outcome vec :=
  match l with
  | [] => Ok x
  | (i, v) :: r => if Nat.ltb i n then vwrites n r (vput x i v) else Fault OutOfBounds
  end.
(** An assignment. *)
Definition W (i j : nat) (v : R) : nat * nat * R := (i, j, v).
Definition Z1 (i : nat) (v : R) : nat * R := (i, v).
Arguments W (i j)%nat_scope v%R_scope.
Arguments Z1 i%nat_scope v%R_scope.
(** The cases 3 and 2 of a switch over the dimension that falls through. *)
Definition if3 {A} (d : nat) (l : list A) : list A := if Nat.ltb 2 d then l else [].
Definition if2 {A} (d : nat) (l : list A) : list A := if Nat.ltb 1 d then l else [].
Definition mmul (n : nat) (a b : mx) : mx := fun i j => sum n (fun k => a i k * b k j).
Definition mvec (n : nat) (a : mx) (x : vec) : vec := fun i => sum n (fun k => a i k * x k).
Definition mscale (c : R) (a : mx) : mx := fun i j => c * a i j.

(** ** Gas and flight condition *)
(** gas_property.h: the data set by the user. *)
Record gas := mkGas { g_rho : R; g_T : R; g_cp : R; g_cv : R }.
(** gas_property.h L90-102 init *)
Definition g_R (g : gas) : R := g_cp g - g_cv g.
Definition g_gamma (g : gas) : R := g_cp g / g_cv g.
Definition g_p (g : gas) : R := g_rho g * g_R g * g_T g.
Definition g_a (g : gas) : R := sqrt (g_gamma g * g_R g * g_T g).
Definition gas_init (g : gas) : outcome unit :=
  assert_ (rltb 0 (g_rho g)) (assert_ (rltb 0 (g_T g)) (assert_ (rltb 0 (g_cp g)) (assert_ (rltb 0 (g_cv g)) (Ok tt)))).
(** flight_condition.h; the flow vector has three components. *)
Record flight := mkFlight { fl_gas : gas; fl_mach : R; fl_vec : R * R * R }.
Definition norm3 (v : R * R * R) : R := let '(x, y, z) := v in sqrt (x * x + y * y + z * z).
(** L159-163 init: the flow vector is normalised. *)
Definition flight_init (f : flight) : outcome flight :=
  _ <- gas_init (fl_gas f) ;;
  let n := norm3 (fl_vec f) in
  if reqb n 0 then Fault DivByZero
  else let '(x, y, z) := fl_vec f in Ok (mkFlight (fl_gas f) (fl_mach f) (x / n, y / n, z / n)).
(** L77-120 *)
Definition fl_vel (f : flight) : R := fl_mach f * g_a (fl_gas f).
Definition fl_q0 (f : flight) : R := (1/2) * g_rho (fl_gas f) * (fl_vel f * fl_vel f).
Definition fl_dir (f : flight) (i : nat) : R := let '(x, y, z) := fl_vec f in match i with 0%nat => x | 1%nat => y | _ => z end.
Definition fl_rho_u (f : flight) (i : nat) : R := g_rho (fl_gas f) * fl_vel f * fl_dir f i.
Definition fl_rho_e (f : flight) : R := g_rho (fl_gas f) * g_cv (fl_gas f) * g_T (fl_gas f) + fl_q0 f.
(** L122-150: sensitivities; there is none for the third momentum. *)
Definition fl_rho_sens_rho : R := 1.
Definition fl_rho_u_sens_rho (f : flight) (i : nat) : R := fl_rho_u f i / g_rho (fl_gas f).
Definition fl_rho_e_sens_rho (f : flight) : R := fl_rho_e f / g_rho (fl_gas f).
Definition fl_rho_u_sens_mach (f : flight) (i : nat) : outcome R :=
  if reqb (fl_mach f) 0 then Fault DivByZero else Ok (fl_rho_u f i / fl_mach f).
Definition fl_rho_e_sens_mach (f : flight) : outcome R :=
  if reqb (fl_mach f) 0 then Fault DivByZero else Ok (2 * fl_q0 f / fl_mach f).
(** fluid_elem_base.cpp L82-98 get_infinity_vars *)
Definition infinity_vars (d : nat) (f : flight) : outcome vec :=
  vwrites (d + 2)
    ([(0%nat, g_rho (fl_gas f)); (1%nat, fl_rho_u f 0)] ++ if2 d [(2%nat, fl_rho_u f 1)] ++ if3 d [(3%nat, fl_rho_u f 2)]
      ++ [((d + 1)%nat, fl_rho_e f)]) (fun _ => 0).

(** ** Primitive state *)
Record prim := mkPrim { p_rho : R; p_u1 : R; p_u2 : R; p_u3 : R; p_k : R; p_e : R; p_T : R; p_p : R; p_a : R; p_mach : R;
                        p_entropy : R; p_mu : R; p_lambda : R; p_kth : R }.
(** Sutherland's law, primitive_fluid_solution.cpp L107: 1.458e-6 T^1.5 / (T + 110.4). *)
Definition suth (T : R) : R := (1458 / 1000000000) * Rpower T (3/2) / (T + 1104 / 10).
Definition pr_number : R := 72 / 100.
(** The values of init(), L62-113, for a new object (zero() sets the velocities to zero). *)
Definition prim_of (d : nat) (cp cv : R) (visc : bool) (U : vec) : prim :=
  let rho := U 0%nat in
  let u1 := U 1%nat / rho in
  let u2 := if Nat.ltb 1 d then U 2%nat / rho else 0 in
  let u3 := if Nat.ltb 2 d then U 3%nat / rho else 0 in
  let k := (1/2) * (u1 * u1 + u2 * u2 + u3 * u3) in
  let e := U (d + 1)%nat / rho in
  let T := (e - k) / cv in
  let p := (cp - cv) * T * rho in
  let a := sqrt (cp / cv * (cp - cv) * T) in
  let mu := if visc then suth T else 0 in
  mkPrim rho u1 u2 u3 k e T p a (sqrt (2 * k) / a) (ln (p / Rpower rho (cp / cv)))
         mu (if visc then -2 / 3 * mu else 0) (if visc then mu * cp / pr_number else 0).
(** init() with the results that are not numbers: zero density or cv, negative argument of a root, a zero
    speed of sound, the logarithm of a number that is not positive, the power of a negative number. *)
Definition prim_init (d : nat) (cp cv : R) (visc : bool) (U : vec) : outcome prim :=
  let s := prim_of d cp cv visc U in
  if reqb (p_rho s) 0 then Fault DivByZero
  else if reqb cv 0 then Fault DivByZero
  else if rleb (cp / cv * (cp - cv) * p_T s) 0 then Fault DivByZero
  else if rltb (p_rho s) 0 then Fault DivByZero
  else if rleb (p_p s) 0 then Fault DivByZero
  else if (visc && rltb (p_T s) 0)%bool then Fault DivByZero
  else Ok s.
(** L117-122 c_pressure; L126-140 get_uvec *)
Definition c_pressure (s : prim) (p0 q0 : R) : R := (p_p s - p0) / q0.
Definition uvec (d : nat) (s : prim) : vec :=
  fun i => match i with 0%nat => p_u1 s | 1%nat => if Nat.ltb 1 d then p_u2 s else 0 | 2%nat => if Nat.ltb 2 d then p_u3 s else 0 | _ => 0 end.

(** ** Perturbations: small_disturbance_primitive_fluid_solution.cpp L62-125 *)
Record pert := mkPert { d_rho : R; d_u1 : R; d_u2 : R; d_u3 : R; d_k : R; d_e : R; d_T : R; d_p : R; d_a : R;
                        d_mach : outcome R; d_entropy : R; d_mu : R; d_lambda : R; d_kth : R }.
Definition pert_of (d : nat) (cp cv : R) (visc : bool) (s : prim) (V : vec) : pert :=
  let gm := cp / cv in
  let RR := cp - cv in
  let drho := V 0%nat in
  let du1 := (V 1%nat - drho * p_u1 s) / p_rho s in
  let du2 := if Nat.ltb 1 d then (V 2%nat - drho * p_u2 s) / p_rho s else 0 in
  let du3 := if Nat.ltb 2 d then (V 3%nat - drho * p_u3 s) / p_rho s else 0 in
  let dk := p_u1 s * du1 + (if Nat.ltb 1 d then p_u2 s * du2 else 0) + (if Nat.ltb 2 d then p_u3 s * du3 else 0) in
  let de := (V (d + 1)%nat - drho * p_e s) / p_rho s in
  let dT := (de - dk) / cv in
  let dp := RR * (dT * p_rho s + p_T s * drho) in
  let da := (1/2) * sqrt (gm * RR / p_T s) * dT in
  let T := p_T s in
  let dmu := if visc then (1458 / 1000000000) * dT * ((3/2) * Rpower T (1/2) / (T + 1104/10) - Rpower T (3/2) / ((T + 1104/10) * (T + 1104/10))) else 0 in
  mkPert drho du1 du2 du3 dk de dT dp da
    (if reqb (p_k s) 0 then Fault DivByZero else Ok (dk / sqrt (2 * p_k s) / p_a s - sqrt (2 * p_k s) / (p_a s * p_a s) * da))
    ((dp / Rpower (p_rho s) gm - gm * p_p s / Rpower (p_rho s) (gm + 1) * drho) / (p_p s / Rpower (p_rho s) gm))
    dmu (if visc then -2 / 3 * dmu else 0) (if visc then dmu * cp / pr_number else 0).

(** ** Fluxes and Jacobians: fluid_elem_base.cpp *)
Open Scope nat_scope.
(** L149-217 calculate_advection_flux; [c] is the direction. *)
Definition adv_flux (d c : nat) (s : prim) : outcome vec :=
  let n1 := 2 + d in
  let rho := p_rho s in let u1 := p_u1 s in let u2 := p_u2 s in let u3 := p_u3 s in let p := p_p s in let e := p_e s in
  vwrites n1
   (match c with
    | 0 => [Z1 0 (rho * u1); Z1 (n1 - 1) (u1 * (rho * e + p))] ++ if3 d [Z1 3 (rho * u1 * u3)] ++ if2 d [Z1 2 (rho * u1 * u2)] ++ [Z1 1 (rho * u1 * u1 + p)]
    | 1 => [Z1 0 (rho * u2); Z1 (n1 - 1) (u2 * (rho * e + p))] ++ if3 d [Z1 3 (rho * u2 * u3)] ++ if2 d [Z1 2 (rho * u2 * u2 + p)] ++ [Z1 1 (rho * u2 * u1)]
    | 2 => [Z1 0 (rho * u3); Z1 (n1 - 1) (u3 * (rho * e + p))] ++ if3 d [Z1 3 (rho * u3 * u3 + p)] ++ if2 d [Z1 2 (rho * u3 * u2)] ++ [Z1 1 (rho * u3 * u1)]
    | _ => []
    end) (fun _ => 0%R).

(** L338-422 calculate_conservative_variable_jacobian *)
Definition dcons_dprim (d : nat) (cv : R) (s : prim) : outcome mx :=
  let n1 := 2 + d in
  let rho := p_rho s in let u1 := p_u1 s in let u2 := p_u2 s in let u3 := p_u3 s in let e := p_e s in
  writes n1
   (if3 d [W 3 0 (u3); W 3 3 (rho); W (n1 - 1) 3 (rho * u3)] ++
    if2 d [W 2 0 (u2); W 2 2 (rho); W (n1 - 1) 2 (rho * u2)] ++
    [W 0 0 (1); W 1 0 (u1); W 1 1 (rho); W (n1 - 1) 0 (e); W (n1 - 1) 1 (rho * u1); W (n1 - 1) (n1 - 1) (rho * cv)]) mx0.
Definition dprim_dcons (d : nat) (cv : R) (s : prim) : outcome mx :=
  let n1 := 2 + d in
  let rho := p_rho s in let u1 := p_u1 s in let u2 := p_u2 s in let u3 := p_u3 s in let e := p_e s in let k := p_k s in
  writes n1
   (if3 d [W 3 0 (- u3 / rho); W 3 3 (1 / rho); W (n1 - 1) 3 (- u3 / cv / rho)] ++
    if2 d [W 2 0 (- u2 / rho); W 2 2 (1 / rho); W (n1 - 1) 2 (- u2 / cv / rho)] ++
    [W 0 0 (1); W 1 0 (- u1 / rho); W 1 1 (1 / rho); W (n1 - 1) 0 ((- e + 2 * k) / cv / rho); W (n1 - 1) 1 (- u1 / cv / rho);
     W (n1 - 1) (n1 - 1) (1 / cv / rho)]) mx0.

(** L426-568 calculate_advection_flux_jacobian *)
Definition adv_jac (d c : nat) (R0 cv gm : R) (s : prim) : outcome mx :=
  let n1 := 2 + d in
  let u1 := p_u1 s in let u2 := p_u2 s in let u3 := p_u3 s in let e := p_e s in let k := p_k s in let T := p_T s in
  match c with
  | 0 => writes n1
     (if3 d [W 1 3 (- u3 * R0 / cv); W 3 0 (- u1 * u3); W 3 1 (u3); W 3 3 (u1); W (n1 - 1) 3 (- u1 * u3 * R0 / cv)] ++
      if2 d [W 1 2 (- u2 * R0 / cv); W 2 0 (- u1 * u2); W 2 1 (u2); W 2 2 (u1); W (n1 - 1) 2 (- u1 * u2 * R0 / cv)] ++
      [W 0 1 (1); W 1 0 (- u1 * u1 + R0 * k / cv); W 1 1 (u1 * (2 - R0 / cv)); W 1 (n1 - 1) (R0 / cv);
       W (n1 - 1) 0 (u1 * (R0 * (- e + 2 * k) - e * cv) / cv); W (n1 - 1) 1 (e + R0 * (T - u1 * u1 / cv)); W (n1 - 1) (n1 - 1) (u1 * gm)]) mx0
  | 1 =>
     if Nat.eqb d 1 then Fault AssertFailed else
     writes n1
     (if3 d [W 2 3 (- u3 * R0 / cv); W 3 0 (- u2 * u3); W 3 2 (u3); W 3 3 (u2); W (n1 - 1) 3 (- u2 * u3 * R0 / cv)] ++
      [W 0 2 (1); W 1 0 (- u1 * u2); W 1 1 (u2); W 1 2 (u1); W 2 0 (- u2 * u2 + R0 * k / cv); W 2 1 (- u1 * R0 / cv);
       W 2 2 (u2 * (2 - R0 / cv)); W 2 (n1 - 1) (R0 / cv);
       W (n1 - 1) 0 (u2 * (R0 * (- e + 2 * k) - e * cv) / cv); W (n1 - 1) 1 (- u1 * u2 * R0 / cv);
       W (n1 - 1) 2 (e + R0 * (T - u2 * u2 / cv)); W (n1 - 1) (n1 - 1) (u2 * gm)]) mx0
  | 2 => writes n1
     [W 0 3 (1); W 1 0 (- u1 * u3); W 1 1 (u3); W 1 3 (u1); W 2 0 (- u2 * u3); W 2 2 (u3); W 2 3 (u2);
      W 3 0 (- u3 * u3 + R0 * k / cv); W 3 1 (- u1 * R0 / cv); W 3 2 (- u2 * R0 / cv); W 3 3 (u3 * (2 - R0 / cv)); W 3 (n1 - 1) (R0 / cv);
      W (n1 - 1) 0 (u3 * (R0 * (- e + 2 * k) - e * cv) / cv); W (n1 - 1) 1 (- u1 * u3 * R0 / cv); W (n1 - 1) 2 (- u2 * u3 * R0 / cv);
      W (n1 - 1) 3 (e + R0 * (T - u3 * u3 / cv)); W (n1 - 1) (n1 - 1) (u3 * gm)] mx0
  | _ => Fault AssertFailed
  end.

(** L40-70: the active primitive variables, in order. *)
Inductive pvar := RHO | VEL1 | VEL2 | VEL3 | TEMP.
Definition active (d : nat) : list pvar := [RHO; VEL1] ++ if2 d [VEL2] ++ if3 d [VEL3] ++ [TEMP].
(** L1006-1277 calculate_advection_flux_jacobian_sensitivity_for_primitive_variable *)
Definition adv_jac_sens (d c : nat) (pv : pvar) (R0 cv : R) (s : prim) : outcome mx :=
  let n1 := 2 + d in
  let u1 := p_u1 s in let u2 := p_u2 s in let u3 := p_u3 s in let e := p_e s in let k := p_k s in
  match c with
  | 0 => writes n1
    (match pv with
     | RHO => []
     | VEL1 => if3 d [W 3 0 (- u3); W 3 3 (1); W (n1 - 1) 3 (- u3 * R0 / cv)] ++ if2 d [W 2 0 (- u2); W 2 2 (1); W (n1 - 1) 2 (- u2 * R0 / cv)] ++
               [W 1 0 (- u1 * (2 - R0 / cv)); W 1 1 (2 - R0 / cv); W (n1 - 1) 0 ((- e * (cv + R0) + 2 * R0 * k + u1 * u1 * (- cv + R0)) / cv);
                W (n1 - 1) 1 (u1 * (1 - 2 * R0 / cv)); W (n1 - 1) (n1 - 1) ((cv + R0) / cv)]
     | VEL2 => [W 1 0 (u2 * R0 / cv); W 1 2 (- R0 / cv); W 2 0 (- u1); W 2 1 (1); W (n1 - 1) 0 ((- cv + R0) * u1 * u2 / cv); W (n1 - 1) 1 (u2); W (n1 - 1) 2 (- u1 * R0 / cv)]
     | VEL3 => [W 1 0 (u3 * R0 / cv); W 1 3 (- R0 / cv); W 3 0 (- u1); W 3 1 (1); W (n1 - 1) 0 ((- cv + R0) * u1 * u3 / cv); W (n1 - 1) 1 (u3); W (n1 - 1) 3 (- u1 * R0 / cv)]
     | TEMP => [W (n1 - 1) 0 (- u1 * (cv + R0)); W (n1 - 1) 1 (cv + R0)]
     end) mx0
  | 1 => writes n1
    (match pv with
     | RHO => []
     | VEL1 => [W 1 0 (- u2); W 1 2 (1); W 2 0 (u1 * R0 / cv); W 2 1 (- R0 / cv); W (n1 - 1) 0 ((- cv + R0) * u1 * u2 / cv); W (n1 - 1) 1 (- u2 * R0 / cv); W (n1 - 1) 2 (u1)]
     | VEL2 => if3 d [W 3 0 (- u3); W 3 3 (1); W (n1 - 1) 3 (- u3 * R0 / cv)] ++
               [W 1 0 (- u1); W 1 1 (1); W 2 0 (- u2 * (2 - R0 / cv)); W 2 2 (2 - R0 / cv); W (n1 - 1) 0 ((- e * (cv + R0) + 2 * R0 * k + u2 * u2 * (- cv + R0)) / cv);
                W (n1 - 1) 1 (- u1 * R0 / cv); W (n1 - 1) 2 (u2 * (1 - 2 * R0 / cv)); W (n1 - 1) (n1 - 1) ((cv + R0) / cv)]
     | VEL3 => [W 2 0 (u3 * R0 / cv); W 2 3 (- R0 / cv); W 3 0 (- u2); W 3 2 (1); W (n1 - 1) 0 ((- cv + R0) * u2 * u3 / cv); W (n1 - 1) 2 (u3); W (n1 - 1) 3 (- u2 * R0 / cv)]
     | TEMP => [W (n1 - 1) 0 (- u2 * (cv + R0)); W (n1 - 1) 2 (cv + R0)]
     end) mx0
  | 2 => writes n1
    (match pv with
     | RHO => []
     | VEL1 => [W 1 0 (- u3); W 1 3 (1); W 3 0 (u1 * R0 / cv); W 3 1 (- R0 / cv); W (n1 - 1) 0 ((- cv + R0) * u1 * u3 / cv); W (n1 - 1) 1 (- u3 * R0 / cv); W (n1 - 1) 3 (u1)]
     | VEL2 => [W 2 0 (- u3); W 2 3 (1); W 3 0 (u2 * R0 / cv); W 3 2 (- R0 / cv); W (n1 - 1) 0 ((- cv + R0) * u2 * u3 / cv); W (n1 - 1) 2 (- u3 * R0 / cv); W (n1 - 1) 3 (u2)]
     | VEL3 => [W 1 0 (- u1); W 1 1 (1); W 2 0 (- u2); W 2 2 (1); W 3 0 (- u3 * (2 - R0 / cv)); W 3 3 (2 - R0 / cv);
                W (n1 - 1) 0 ((- e * (cv + R0) + 2 * R0 * k + u3 * u3 * (- cv + R0)) / cv); W (n1 - 1) 1 (- u1 * R0 / cv); W (n1 - 1) 2 (- u2 * R0 / cv);
                W (n1 - 1) 3 (u3 * (1 - 2 * R0 / cv)); W (n1 - 1) (n1 - 1) ((cv + R0) / cv)]
     | TEMP => [W (n1 - 1) 0 (- u3 * (cv + R0)); W (n1 - 1) 3 (cv + R0)]
     end) mx0
  | _ => Fault AssertFailed
  end.
(** L973-1003 ..._for_conservative_variable: the chain rule.  Adding a zero multiple is the same as not
    adding it. *)
Fixpoint chain (pvs : list pvar) (i n1 d c : nat) (R0 cv : R) (s : prim) (dp : mx) (jac : nat -> mx) : outcome (nat -> mx) :=
  match pvs with
  | [] => Ok jac
  | pv :: r =>
      m <- adv_jac_sens d c pv R0 cv s ;;
      chain r (S i) n1 d c R0 cv s dp (fun v a b => if reqb (Rabs (dp i v)) 0 then jac v a b else (jac v a b + dp i v * m a b)%R)
  end.
Definition adv_jac_sens_cons (d c : nat) (R0 cv : R) (s : prim) : outcome (nat -> mx) :=
  dp <- dprim_dcons d cv s ;;
  chain (active d) 0 (2 + d) d c R0 cv s dp (fun _ => mx0).

(** L221-250 calculate_diffusion_flux *)
Definition diff_flux (d c : nat) (s : prim) (tau : mx) (gT : vec) : vec :=
  let n1 := 2 + d in
  let u := fun i => match i with 0 => p_u1 s | 1 => p_u2 s | _ => p_u3 s end in
  fun i => if Nat.eqb i (n1 - 1) then (sum d (fun j => u j * tau c j) + p_kth s * gT c)%R
           else if Nat.eqb i 0 then 0%R else tau c (i - 1).
(** L253-287 calculate_diffusion_tensors; [dU j] is the gradient of the conservative variables in
    direction j (the product with the operator matrices is not modelled here). *)
Definition tensor_step (d i : nat) (mu lambda : R) (q : vec) (tau : mx) : mx :=
  fold_left (fun t j =>
      let t1 := mput t i j (t i j + mu * q (j + 1)%nat)%R in
      let t2 := mput t1 j i (t1 j i + mu * q (j + 1)%nat)%R in
      mput t2 j j (t2 j j + lambda * q (i + 1)%nat)%R) (seq 0 d) tau.
Definition diff_tensors (d : nat) (s : prim) (dp : mx) (dU : nat -> vec) : mx * vec :=
  (fold_left (fun t i => tensor_step d i (p_mu s) (p_lambda s) (mvec (2 + d) dp (dU i)) t) (seq 0 d) mx0,
   fun i => if Nat.ltb i d then mvec (2 + d) dp (dU i) (d + 1) else 0%R).
(** L290-334 calculate_diffusion_tensors_sensitivity *)
Definition tensor_sens_step (d i : nat) (mu lambda dmu dlambda : R) (q dq : vec) (tau : mx) : mx :=
  fold_left (fun t j =>
      let t1 := mput t i j (t i j + (dmu * q (j + 1)%nat + mu * dq (j + 1)%nat))%R in
      let t2 := mput t1 j i (t1 j i + (dmu * q (j + 1)%nat + mu * dq (j + 1)%nat))%R in
      mput t2 j j (t2 j j + (dlambda * q (i + 1)%nat + lambda * dq (i + 1)%nat))%R) (seq 0 d) tau.
Definition diff_tensors_sens (d : nat) (s : prim) (ds : pert) (dp : mx) (dU dUs : nat -> vec) : mx * vec :=
  (fold_left (fun t i => tensor_sens_step d i (p_mu s) (p_lambda s) (d_mu ds) (d_lambda ds) (mvec (2 + d) dp (dU i)) (mvec (2 + d) dp (dUs i)) t) (seq 0 d) mx0,
   fun i => if Nat.ltb i d then mvec (2 + d) dp (dUs i) (d + 1) else 0%R).

(** L573-752 calculate_diffusion_flux_jacobian_primitive_vars; [f] is the direction of the flux, [c] the
    direction of the derivative, [uv] the velocity to use. *)
Definition diff_jac_prim (d f c : nat) (uv : vec) (zero_kth : bool) (s : prim) : outcome mx :=
  let n1 := 2 + d in
  let u1 := uv 0 in let u2 := if Nat.ltb 1 d then uv 1 else 0%R in let u3 := if Nat.ltb 2 d then uv 2 else 0%R in
  let mu := p_mu s in let la := p_lambda s in let kth := if zero_kth then 0%R else p_kth s in
  writes n1
   (match f, c with
    | 0, 0 => if3 d [W 3 3 (mu); W (n1 - 1) 3 (u3 * mu)] ++ if2 d [W 2 2 (mu); W (n1 - 1) 2 (u2 * mu)] ++
              [W 1 1 (la + 2 * mu); W (n1 - 1) 1 (u1 * (la + 2 * mu)); W (n1 - 1) (n1 - 1) (kth)]
    | 0, 1 => [W 1 2 (la); W 2 1 (mu); W (n1 - 1) 1 (u2 * mu); W (n1 - 1) 2 (u1 * la)]
    | 0, 2 => [W 1 3 (la); W 3 1 (mu); W (n1 - 1) 1 (u3 * mu); W (n1 - 1) 3 (u1 * la)]
    | 1, 0 => [W 1 2 (mu); W 2 1 (la); W (n1 - 1) 1 (u2 * la); W (n1 - 1) 2 (u1 * mu)]
    | 1, 1 => if3 d [W 3 3 (mu); W (n1 - 1) 3 (u3 * mu)] ++
              [W 1 1 (mu); W 2 2 (la + 2 * mu); W (n1 - 1) 1 (u1 * mu); W (n1 - 1) 2 (u2 * (la + 2 * mu)); W (n1 - 1) (n1 - 1) (kth)]
    | 1, 2 => [W 2 3 (la); W 3 2 (mu); W (n1 - 1) 2 (u3 * mu); W (n1 - 1) 3 (u2 * la)]
    | 2, 0 => [W 1 3 (mu); W 3 1 (la); W (n1 - 1) 1 (u3 * la); W (n1 - 1) 3 (u1 * mu)]
    | 2, 1 => [W 2 3 (mu); W 3 2 (la); W (n1 - 1) 2 (u3 * la); W (n1 - 1) 3 (u2 * mu)]
    | 2, 2 => [W 1 1 (mu); W 2 2 (mu); W 3 3 (la + 2 * mu); W (n1 - 1) 1 (u1 * mu); W (n1 - 1) 2 (u2 * mu); W (n1 - 1) 3 (u3 * (la + 2 * mu)); W (n1 - 1) (n1 - 1) (kth)]
    | _, _ => []
    end) mx0.
(** L757-969 calculate_diffusion_flux_jacobian *)
Definition diff_jac (d f c : nat) (cv : R) (s : prim) : outcome mx :=
  let n1 := 2 + d in
  let rho := p_rho s in let u1 := p_u1 s in let u2 := p_u2 s in let u3 := p_u3 s in let e := p_e s in let k := p_k s in
  let mu := p_mu s in let la := p_lambda s in let kth := p_kth s in
  writes n1
   (match f, c with
    | 0, 0 => if3 d [W 3 0 (- u3 * mu / rho); W 3 3 (mu / rho); W (n1 - 1) 3 (u3 * (- kth + cv * mu) / cv / rho)] ++
              if2 d [W 2 0 (- u2 * mu / rho); W 2 2 (mu / rho); W (n1 - 1) 2 (u2 * (- kth + cv * mu) / cv / rho)] ++
              [W 1 0 (- u1 * (la + 2 * mu) / rho); W 1 1 ((la + 2 * mu) / rho);
               W (n1 - 1) 0 ((kth * (2 * k - e) - cv * (2 * k * mu + u1 * u1 * (mu + la))) / cv / rho);
               W (n1 - 1) 1 (u1 * (- kth + cv * (la + 2 * mu)) / cv / rho); W (n1 - 1) (n1 - 1) (kth / cv / rho)]
    | 0, 1 => [W 1 0 (- u2 * la / rho); W 1 2 (la / rho); W 2 0 (- u1 * mu / rho); W 2 1 (mu / rho);
               W (n1 - 1) 0 (- u1 * u2 * (la + mu) / rho); W (n1 - 1) 1 (u2 * mu / rho); W (n1 - 1) 2 (u1 * la / rho)]
    | 0, 2 => [W 1 0 (- u3 * la / rho); W 1 3 (la / rho); W 3 0 (- u1 * mu / rho); W 3 1 (mu / rho);
               W (n1 - 1) 0 (- u1 * u3 * (la + mu) / rho); W (n1 - 1) 1 (u3 * mu / rho); W (n1 - 1) 3 (u1 * la / rho)]
    | 1, 0 => [W 1 0 (- u2 * mu / rho); W 1 2 (mu / rho); W 2 0 (- u1 * la / rho); W 2 1 (la / rho);
               W (n1 - 1) 0 (- u1 * u2 * (la + mu) / rho); W (n1 - 1) 1 (u2 * la / rho); W (n1 - 1) 2 (u1 * mu / rho)]
    | 1, 1 => if3 d [W 3 0 (- u3 * mu / rho); W 3 3 (mu / rho); W (n1 - 1) 3 (u3 * (- kth + cv * mu) / cv / rho)] ++
              [W 1 0 (- u1 * mu / rho); W 1 1 (mu / rho); W 2 0 (- u2 * (la + 2 * mu) / rho); W 2 2 ((la + 2 * mu) / rho);
               W (n1 - 1) 0 ((kth * (2 * k - e) - cv * (2 * k * mu + u2 * u2 * (mu + la))) / cv / rho);
               W (n1 - 1) 1 (u1 * (- kth + cv * mu) / cv / rho); W (n1 - 1) 2 (u2 * (- kth + cv * (la + 2 * mu)) / cv / rho);
               W (n1 - 1) (n1 - 1) (kth / cv / rho)]
    | 1, 2 => [W 2 0 (- u3 * la / rho); W 2 3 (la / rho); W 3 0 (- u2 * mu / rho); W 3 2 (mu / rho);
               W (n1 - 1) 0 (- u2 * u3 * (la + mu) / rho); W (n1 - 1) 2 (u3 * mu / rho); W (n1 - 1) 3 (u2 * la / rho)]
    | 2, 0 => [W 1 0 (- u3 * mu / rho); W 1 3 (mu / rho); W 3 0 (- u1 * la / rho); W 3 1 (la / rho);
               W (n1 - 1) 0 (- u1 * u3 * (la + mu) / rho); W (n1 - 1) 1 (u3 * la / rho); W (n1 - 1) 3 (u1 * mu / rho)]
    | 2, 1 => [W 2 0 (- u3 * mu / rho); W 2 3 (mu / rho); W 3 0 (- u2 * la / rho); W 3 2 (la / rho);
               W (n1 - 1) 0 (- u2 * u3 * (la + mu) / rho); W (n1 - 1) 2 (u3 * la / rho); W (n1 - 1) 3 (u2 * mu / rho)]
    | 2, 2 => [W 1 0 (- u1 * mu / rho); W 1 1 (mu / rho); W 2 0 (- u2 * mu / rho); W 2 2 (mu / rho);
               W 3 0 (- u3 * (la + 2 * mu) / rho); W 3 3 ((la + 2 * mu) / rho);
               W (n1 - 1) 0 ((kth * (2 * k - e) - cv * (2 * k * mu + u3 * u3 * (mu + la))) / cv / rho);
               W (n1 - 1) 1 (u1 * (- kth + cv * mu) / cv / rho); W (n1 - 1) 2 (u2 * (- kth + cv * mu) / cv / rho);
               W (n1 - 1) 3 (u3 * (- kth + cv * (la + 2 * mu)) / cv / rho); W (n1 - 1) (n1 - 1) (kth / cv / rho)]
    | _, _ => []
    end) mx0.

(** L1542-1575 calculate_pressure_derivative_wrt_conservative_variables *)
Definition dpdX (d : nat) (R0 cv : R) (s : prim) : outcome vec :=
  let n1 := 2 + d in
  vwrites n1 (if3 d [Z1 3 (- R0 / cv * p_u3 s)] ++ if2 d [Z1 2 (- R0 / cv * p_u2 s)] ++
              [Z1 0 (R0 / cv * p_k s); Z1 1 (- R0 / cv * p_u1 s); Z1 (n1 - 1) (R0 / cv)]) (fun _ => 0%R).

(** L1580-1725 calculate_advection_flux_jacobian_for_moving_solid_wall_boundary; [nv] is the normal, [dn]
    the change of the normal. *)
Definition wall_jac (d : nat) (R0 cv : R) (s : prim) (uini : R) (nv dn : vec) : outcome mx :=
  let n1 := 2 + d in
  let rho := p_rho s in let u1 := p_u1 s in let u2 := p_u2 s in let u3 := p_u3 s in let k := p_k s in let e := p_e s in let p := p_p s in
  let n0 := nv 0 in let m1 := nv 1 in let m2 := nv 2 in
  m <- writes n1
   (if3 d [W 1 3 (- R0 / cv * n0 * u3); W 2 3 (- R0 / cv * m1 * u3); W 3 0 (m2 * R0 / cv * k); W 3 1 (- R0 / cv * m2 * u1); W 3 2 (- R0 / cv * m2 * u2);
           W 3 3 (uini - R0 / cv * m2 * u3); W 3 (n1 - 1) (R0 / cv * m2); W (n1 - 1) 3 (- uini * R0 / cv * u3)] ++
    if2 d [W 1 2 (- R0 / cv * n0 * u2); W 2 0 (m1 * R0 / cv * k); W 2 1 (- R0 / cv * m1 * u1); W 2 2 (uini - R0 / cv * m1 * u2);
           W 2 (n1 - 1) (R0 / cv * m1); W (n1 - 1) 2 (- uini * R0 / cv * u2)] ++
    [W 0 0 (uini); W 1 0 (n0 * R0 / cv * k); W 1 1 (uini - R0 / cv * n0 * u1); W 1 (n1 - 1) (R0 / cv * n0);
     W (n1 - 1) 0 (uini * R0 / cv * k); W (n1 - 1) 1 (- uini * R0 / cv * u1); W (n1 - 1) (n1 - 1) (uini * (1 + R0 / cv))]) mx0 ;;
  if rltb 0 (sum d (fun i => dn i * dn i)%R) then
    let u := fun i => match i with 0 => u1 | 1 => u2 | _ => u3 end in
    let du := fun j => if Nat.eqb j 0 then (- sum d (fun i => u i * dn i))%R else if Nat.ltb j (d + 1) then dn (j - 1) else 0%R in
    let tmp := fun i => if Nat.eqb i 0 then 1%R else if Nat.ltb i (d + 1) then u (i - 1) else (e + p / rho)%R in
    Ok (fun i j => (m i j - tmp i * du j)%R)
  else Ok m.

(** L1730-1868 calculate_entropy_variable_jacobian.  Where the code copies an entry across the diagonal
    the value is repeated here. *)
Definition dU_dV (d : nat) (cv gm : R) (s : prim) : outcome mx :=
  let n1 := 2 + d in
  let rho := p_rho s in let u1 := p_u1 s in let u2 := p_u2 s in let u3 := p_u3 s in let k := p_k s in let e := p_e s in let T := p_T s in
  m <- writes n1
   (if3 d [W 0 3 (u3); W 1 3 (u1 * u3); W 2 3 (u2 * u3); W 3 0 (u3); W 3 1 (u1 * u3); W 3 2 (u2 * u3); W 3 3 (u3 * u3 + cv * T * (gm - 1));
           W 3 (n1 - 1) (u3 * (cv * T * gm + k)); W (n1 - 1) 3 (u3 * (cv * T * gm + k))] ++
    if2 d [W 0 2 (u2); W 1 2 (u1 * u2); W 2 0 (u2); W 2 1 (u1 * u2); W 2 2 (u2 * u2 + cv * T * (gm - 1)); W 2 (n1 - 1) (u2 * (cv * T * gm + k));
           W (n1 - 1) 2 (u2 * (cv * T * gm + k))] ++
    [W 0 0 (1); W 0 1 (u1); W 0 (n1 - 1) (e); W 1 0 (u1); W 1 1 (u1 * u1 + cv * T * (gm - 1)); W 1 (n1 - 1) (u1 * (cv * T * gm + k));
     W (n1 - 1) 0 (e); W (n1 - 1) 1 (u1 * (cv * T * gm + k)); W (n1 - 1) (n1 - 1) (k * k + gm * cv * T * (cv * T + 2 * k))]) mx0 ;;
  Ok (mscale (rho / (gm - 1)) m).
Definition dV_dU (d : nat) (cv gm : R) (s : prim) : outcome mx :=
  let n1 := 2 + d in
  let rho := p_rho s in let u1 := p_u1 s in let u2 := p_u2 s in let u3 := p_u3 s in let k := p_k s in let e := p_e s in let T := p_T s in
  m <- writes n1
   (if3 d [W 0 3 (- u3 * k); W 1 3 (u1 * u3); W 2 3 (u2 * u3); W 3 0 (- u3 * k); W 3 1 (u1 * u3); W 3 2 (u2 * u3); W 3 3 (u3 * u3 + cv * T);
           W 3 (n1 - 1) (- u3); W (n1 - 1) 3 (- u3)] ++
    if2 d [W 0 2 (- u2 * k); W 1 2 (u1 * u2); W 2 0 (- u2 * k); W 2 1 (u1 * u2); W 2 2 (u2 * u2 + cv * T); W 2 (n1 - 1) (- u2); W (n1 - 1) 2 (- u2)] ++
    [W 0 0 (k * k + cv * cv * T * T * gm); W 0 1 (- u1 * k); W 0 (n1 - 1) (- e + 2 * k); W 1 0 (- u1 * k); W 1 1 (u1 * u1 + cv * T); W 1 (n1 - 1) (- u1);
     W (n1 - 1) 0 (- e + 2 * k); W (n1 - 1) 1 (- u1); W (n1 - 1) (n1 - 1) (1)]) mx0 ;;
  Ok (fun i j => (m i j / (rho * cv * cv * T * T))%R).

(** L1282-1538 calculate_advection_left_eigenvector_and_inverse_for_normal: eigenvalues, left
    eigenvectors and the transpose of their inverse. *)
Definition main_dir (nx ny nz : R) : nat :=
  if (rleb (Rabs ny) (Rabs nx) && rleb (Rabs nz) (Rabs nx))%bool then 1
  else if (rleb (Rabs nx) (Rabs ny) && rleb (Rabs nz) (Rabs ny))%bool then 2
  else if (rleb (Rabs nx) (Rabs nz) && rleb (Rabs ny) (Rabs nz))%bool then 3 else 100.
Definition eig (d : nat) (cv gm : R) (s : prim) (nv : vec) : outcome (vec * mx * mx) :=
  let n1 := 2 + d in
  let u1 := p_u1 s in let u2 := p_u2 s in let u3 := p_u3 s in let k := p_k s in let T := p_T s in let a := p_a s in
  let nx := nv 0 in
  let ny := if Nat.ltb 1 d then nv 1 else 0%R in
  let nz := if Nat.ltb 2 d then nv 2 else 0%R in
  let u := ((if Nat.ltb 2 d then u3 * nz else 0) + (if Nat.ltb 1 d then u2 * ny else 0) + u1 * nx)%R in
  let q := main_dir nx ny nz in
  ev <- vwrites n1 (if3 d [Z1 2 (u)] ++ if2 d [Z1 1 (u)] ++ [Z1 0 (u); Z1 (n1 - 2) (u - a); Z1 (n1 - 1) (u + a)]) (fun _ => 0%R) ;;
  l1 <- writes n1
   (if3 d [W 3 (n1 - 2) (- u3 - nz * a / (gm - 1)); W 3 (n1 - 1) (- u3 + nz * a / (gm - 1))] ++
    if2 d [W 2 (n1 - 2) (- u2 - ny * a / (gm - 1)); W 2 (n1 - 1) (- u2 + ny * a / (gm - 1))] ++
    [W 0 (n1 - 2) (k + u * a / (gm - 1)); W 1 (n1 - 2) (- u1 - nx * a / (gm - 1)); W (n1 - 1) (n1 - 2) (1);
     W 0 (n1 - 1) (k - u * a / (gm - 1)); W 1 (n1 - 1) (- u1 + nx * a / (gm - 1)); W (n1 - 1) (n1 - 1) (1)]) mx0 ;;
  v1 <- writes n1
   (if3 d [W 3 0 ((gm - 1) * u1 * u3 / (a * a) - nx * nz); W 3 1 ((gm - 1) * u2 * u3 / (a * a) - ny * nz); W 0 2 ((gm - 1) * u3 / (a * a));
           W 1 2 ((gm - 1) * u3 * u1 / (a * a) - nz * nx); W 2 2 ((gm - 1) * u3 * u2 / (a * a) - nz * ny); W 3 2 ((gm - 1) * u3 * u3 / (a * a) + 1 - nz * nz);
           W (n1 - 1) 2 ((gm - 1) * k * u3 / (a * a) + u3 - nz * u); W 3 (q - 1) (u3);
           W 3 (n1 - 2) ((1/2) * (gm - 1) * (- nz + u3 / a) / a); W 3 (n1 - 1) ((1/2) * (gm - 1) * (nz + u3 / a) / a)] ++
    if2 d [W 2 0 ((gm - 1) * u1 * u2 / (a * a) - nx * ny); W 0 1 ((gm - 1) * u2 / (a * a)); W 1 1 ((gm - 1) * u2 * u1 / (a * a) - ny * nx);
           W 2 1 ((gm - 1) * u2 * u2 / (a * a) + 1 - ny * ny); W (n1 - 1) 1 ((gm - 1) * k * u2 / (a * a) + u2 - ny * u); W 2 (q - 1) (u2);
           W 2 (n1 - 2) ((1/2) * (gm - 1) * (- ny + u2 / a) / a); W 2 (n1 - 1) ((1/2) * (gm - 1) * (ny + u2 / a) / a)] ++
    [W 0 0 ((gm - 1) * u1 / (a * a)); W 1 0 ((gm - 1) * u1 * u1 / (a * a) + 1 - nx * nx); W (n1 - 1) 0 ((gm - 1) * k * u1 / (a * a) + u1 - nx * u);
     W 0 (q - 1) (1); W 1 (q - 1) (u1); W (n1 - 1) (q - 1) (k)]) mx0 ;;
  let v2 := fun i j => (if Nat.eqb j (q - 1) then v1 i j * (- (1) / (cv * T * gm)) else v1 i j)%R in
  v3 <- writes n1
   [W 0 (n1 - 2) (1 / (2 * cv * T * gm)); W 1 (n1 - 2) ((1/2) * (gm - 1) * (- nx + u1 / a) / a); W (n1 - 1) (n1 - 2) ((1/2) * (1 + (gm - 1) * (- u + k / a) / a));
    W 0 (n1 - 1) (1 / (2 * cv * T * gm)); W 1 (n1 - 1) ((1/2) * (gm - 1) * (nx + u1 / a) / a); W (n1 - 1) (n1 - 1) ((1/2) * (1 + (gm - 1) * (u + k / a) / a))] v2 ;;
  l2 <- writes n1
   (match q with
    | 1 => if3 d [W 0 2 (nz * u1 / nx - u3); W 1 2 (- nz / nx); W 3 2 (1)] ++
           if2 d [W 0 1 (ny * u1 / nx - u2); W 1 1 (- ny / nx); W 2 1 (1)] ++
           [W 0 0 (u * u1 / nx - (cv * T * gm + k)); W 1 0 (- u / nx); W (n1 - 1) 0 (1)]
    | 2 => if3 d [W 0 2 (nz * u2 / ny - u3); W 2 2 (- nz / ny); W 3 2 (1)] ++
           [W 0 0 (nx * u2 / ny - u1); W 1 0 (1); W 2 0 (- nx / ny); W 0 1 (u * u2 / ny - (cv * T * gm + k)); W 2 1 (- u / ny); W (n1 - 1) 1 (1)]
    | 3 => [W 0 0 (nx * u3 / nz - u1); W 1 0 (1); W 3 0 (- nx / nz); W 0 1 (ny * u3 / nz - u2); W 2 1 (1); W 3 1 (- ny / nz);
            W 0 2 (u * u3 / nz - (cv * T * gm + k)); W 3 2 (- u / nz); W (n1 - 1) 2 (1)]
    | _ => []
    end) l1 ;;
  Ok (ev, l2, v3).
