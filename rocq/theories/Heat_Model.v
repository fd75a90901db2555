(** Model of the heat conduction element, /repo/src/heat_conduction/heat_conduction_elem_base.cpp, and of
    the element operations that call it, heat_conduction_nonlinear_assembly.cpp and
    heat_conduction_transient_assembly.cpp.
    The finite element data at the quadrature points (weights, positions, shape functions and gradients,
    side normals) are data of the model: libMesh and MAST::FEBase are not modelled.  FEMOperatorMatrix with
    one variable (reinit(1, phi)) is used through what its operations compute, see C01 - C03.  Functions
    attached to property cards and boundary conditions are given by their value and the derivatives their
    [derivative] member reports, as functions of the value [t] of the parameter under study.
    Values are exact reals. *)
From Coq Require Import List Arith Bool Reals.
From Verif Require Import Base RBool Sens_Model.
Import ListNotations.
Open Scope R_scope.

(** one quadrature point of the element or of a side *)
Record qpt : Type := mkQ {
  jxw : R;
  xyz : nat -> R;
  phi : nat -> R;                    (* phi[node][qp] *)
  dphi : nat -> nat -> R;            (* dphi[node][qp](direction) *)
  nrm : nat -> R }.                  (* normal, for sides only *)

(** A material function: [val t (Some T) x] while a MeshFieldFunction holding the temperature T of the
    quadrature point is active (_active_sol_function), [val t None x] otherwise; [d_par] is
    derivative(p, ...), [d_temp] is derivative( *_active_sol_function, ...). *)
Record field : Type := mkF {
  val : R -> option R -> (nat -> R) -> R;
  d_par : R -> option R -> (nat -> R) -> R;
  d_temp : R -> option R -> (nat -> R) -> R }.
(** a load function or a Parameter *)
Record lfun : Type := mkL { lval : R -> (nat -> R) -> R; l_par : R -> (nat -> R) -> R }.

Inductive bc : Type :=
| HeatFlux (q : lfun)
| Convection (h T_amb : lfun)
| Radiation (emissivity T_amb T_ref_zero sb_const : lfun)
| HeatSource (q : lfun)
| Dirichlet
| OtherBC.

Section Element.
Variables (n_phi dim : nat).
(** thermal_conductance_matrix and entry (0,0) of thermal_capacitance_matrix *)
Variables (cond : nat -> nat -> field) (capa : field).
(** _property.section: a null pointer for solid elements *)
Variable section : option lfun.
(** _property.if_diagonal_mass_matrix() *)
Variable lumped : bool.
(** whether _active_sol_function is set *)
Variable active_sol : bool.

Definition interp (q : qpt) (v : vec) : R := sum n_phi (fun a => phi q a * v a).
Definition grad (q : qpt) (j : nat) (v : vec) : R := sum n_phi (fun a => dphi q a j * v a).
(** set_element_quadrature_point_solution *)
Definition at_temp (q : qpt) (sol : vec) : option R := if active_sol then Some (interp q sol) else None.

(** ** internal_residual, cpp:54-151 *)
(** flux at a point, cpp:103-110 *)
Definition flux (q : qpt) (K : nat -> nat -> R) (sol : vec) : vec :=
  fold_left (fun fl j => fun i => fl i + grad q j sol * K i j) (seq 0 dim) zero.
(** cpp:113-117 *)
Definition add_flux (w : R) (q : qpt) (fl : vec) (f : vec) : vec :=
  fold_left (fun f i => fun a => f a + w * (dphi q a i * fl i)) (seq 0 dim) f.
(** cpp:120-145 *)
Definition add_cond (w : R) (q : qpt) (K : nat -> nat -> R) (jac : matrix) : matrix :=
  fold_left (fun g i => fold_left (fun g j => fun a b =>
    g a b + w * K i j * (dphi q a i * dphi q b j)) (seq 0 dim) g) (seq 0 dim) jac.
Definition add_dcond (w : R) (q : qpt) (dK : nat -> nat -> R) (sol : vec) (jac : matrix) : matrix :=
  fold_left (fun g j => fold_left (fun g i =>
    if reqb (dK i j) 0 then g
    else fun a b => g a b + w * grad q j sol * dK i j * (dphi q a i * phi q b)) (seq 0 dim) g)
    (seq 0 dim) jac.
Definition internal_qp (t : R) (sol : vec) (req : bool) (fj : vec * matrix) (q : qpt) : vec * matrix :=
  let '(f, jac) := fj in
  let T := at_temp q sol in
  let K := fun i j => val (cond i j) t T (xyz q) in
  let f := add_flux (jxw q) q (flux q K sol) f in
  if req then
    let jac := add_cond (jxw q) q K jac in
    (f, if active_sol then add_dcond (jxw q) q (fun i j => d_temp (cond i j) t T (xyz q)) sol jac else jac)
  else (f, jac).
Definition internal_residual (qs : list qpt) (t : R) (sol : vec) (req : bool) (fj : vec * matrix)
    : vec * matrix := fold_left (internal_qp t sol req) qs fj.

(** internal_residual_sensitivity, cpp:554-615 *)
Definition internal_residual_sensitivity (qs : list qpt) (t : R) (sol : vec) (f : vec) : vec :=
  fold_left (fun f q =>
    let K := fun i j => d_par (cond i j) t (at_temp q sol) (xyz q) in
    add_flux (jxw q) q (flux q K sol) f) qs f.

(** cpp:651-660: JxW times the normal velocity; [vel] is vel_f.derivative(p, ...) *)
Definition jxw_vn (vel : (nat -> R) -> nat -> R) (q : qpt) : R :=
  jxw q * fold_left (fun vn i => vn + vel (xyz q) i * nrm q i) (seq 0 dim) 0.
(** internal_residual_boundary_velocity, cpp:622-698, on the quadrature points of the side *)
Definition internal_residual_boundary_velocity (side : list qpt) (vel : (nat -> R) -> nat -> R)
    (t : R) (sol : vec) (f : vec) : vec :=
  fold_left (fun f q =>
    let K := fun i j => val (cond i j) t (at_temp q sol) (xyz q) in
    add_flux (jxw_vn vel q) q (flux q K sol) f) side f.

(** ** velocity_residual, cpp:156-234 *)
Definition add_mass (w : R) (q : qpt) (m : matrix) : matrix :=
  fun a b => m a b + w * (phi q a * phi q b).
Definition velocity_qp (t : R) (sol vel : vec) (req : bool) (s : vec * matrix * matrix) (q : qpt)
    : vec * matrix * matrix :=
  let '(lf, jxd, jac) := s in
  let T := at_temp q sol in
  let c := val capa t T (xyz q) in
  let v := interp q vel in
  let lf := fun a => lf a + jxw q * c * (phi q a * v) in
  if req || lumped then
    let jxd := add_mass (jxw q * c) q jxd in
    let dc := d_temp capa t T (xyz q) in
    (lf, jxd, if active_sol && negb (reqb dc 0) then add_mass (jxw q * v * dc) q jac else jac)
  else (lf, jxd, jac).
(** cpp:211-216 *)
Definition diagonalize (m : matrix) : matrix :=
  fun a b => if (a =? b)%nat then sum n_phi (fun k => m a k) else 0.
Definition times (m : matrix) (v : vec) : vec := fun a => sum n_phi (fun b => m a b * v b).
Definition velocity_residual (qs : list qpt) (t : R) (sol vel : vec) (req : bool)
    (f : vec) (jxd jac : matrix) : vec * matrix * matrix :=
  let '(lf, jxd, jac) := fold_left (velocity_qp t sol vel req) qs (zero, jxd, jac) in
  if lumped then
    let jxd := diagonalize jxd in
    let f := fun a => f a + times jxd vel a in
    if req then (f, jxd, jac) else (f, mzero, mzero)
  else (fun a => f a + lf a, jxd, jac).

(** velocity_residual_sensitivity, cpp:709-772 *)
Definition velocity_sens_qp (w : R) (c : R) (vel : vec) (s : vec * matrix) (q : qpt) : vec * matrix :=
  let '(lf, m) := s in
  let lf := fun a => lf a + w * c * (phi q a * interp q vel) in
  (lf, if lumped then add_mass (w * c) q m else m).
Definition finish_sens (s : vec * matrix) (vel : vec) (f : vec) : vec :=
  let '(lf, m) := s in
  if lumped then fun a => f a + times (diagonalize m) vel a else fun a => f a + lf a.
Definition velocity_residual_sensitivity (qs : list qpt) (t : R) (sol vel : vec) (f : vec) : vec :=
  finish_sens (fold_left (fun s q => velocity_sens_qp (jxw q) (d_par capa t (at_temp q sol) (xyz q)) vel s q)
                 qs (zero, mzero)) vel f.
(** velocity_residual_boundary_velocity, cpp:783-869 *)
Definition velocity_residual_boundary_velocity (side : list qpt) (bv : (nat -> R) -> nat -> R)
    (t : R) (sol vel : vec) (f : vec) : vec :=
  finish_sens (fold_left (fun s q => velocity_sens_qp (jxw_vn bv q) (val capa t (at_temp q sol) (xyz q)) vel s q)
                 side (zero, mzero)) vel f.

(** ** Loads.  [sec] tells whether the routine uses the section: sides and heat sources do, loads on the
    whole element do not. *)
Definition thick (sec : bool) (t : R) (q : qpt) : R :=
  if sec then match section with Some s => lval s t (xyz q) | None => 1 end else 1.
Definition dthick (sec : bool) (t : R) (q : qpt) : R :=
  if sec then match section with Some s => l_par s t (xyz q) | None => 0 end else 0.

(** surface_flux_residual, cpp:877-953 *)
Definition surface_flux_residual (sec : bool) (qs : list qpt) (g : lfun) (t : R) (f : vec) : vec :=
  fold_left (fun f q => fun a => f a + jxw q * phi q a * lval g t (xyz q) * thick sec t q) qs f.
(** surface_flux_residual_sensitivity, cpp:958-1042 *)
Definition surface_flux_residual_sensitivity (sec : bool) (qs : list qpt) (g : lfun) (t : R) (f : vec) : vec :=
  fold_left (fun f q => fun a => f a + jxw q * phi q a *
    (lval g t (xyz q) * dthick sec t q + l_par g t (xyz q) * thick sec t q)) qs f.
(** surface_flux_boundary_velocity, cpp:1044-1098 *)
Definition surface_flux_boundary_velocity (side : list qpt) (bv : (nat -> R) -> nat -> R) (g : lfun)
    (t : R) (f : vec) : vec :=
  fold_left (fun f q => fun a => f a + jxw_vn bv q * phi q a * lval g t (xyz q)) side f.

(** surface_convection_residual, cpp:1101-1215 *)
Definition surface_convection_residual (sec : bool) (qs : list qpt) (h amb : lfun) (t : R) (sol : vec)
    (req : bool) (fj : vec * matrix) : vec * matrix :=
  fold_left (fun fj q =>
    let '(f, jac) := fj in
    let th := thick sec t q in
    let hc := lval h t (xyz q) in
    (fun a => f a + jxw q * phi q a * th * hc * (interp q sol - lval amb t (xyz q)),
     if req then add_mass (jxw q * th * hc) q jac else jac)) qs fj.
(** surface_convection_residual_sensitivity, cpp:1218-1327 *)
Definition surface_convection_residual_sensitivity (sec : bool) (qs : list qpt) (h amb : lfun) (t : R)
    (sol : vec) (f : vec) : vec :=
  fold_left (fun f q => fun a =>
    let th := thick sec t q in let dth := dthick sec t q in
    let hc := lval h t (xyz q) in let dhc := l_par h t (xyz q) in
    let d := interp q sol - lval amb t (xyz q) in
    f a + jxw q * phi q a * (th * dhc * d + th * hc * (- l_par amb t (xyz q)) + dth * hc * d)) qs f.
(** surface_convection_boundary_velocity, cpp:1333-1394 *)
Definition surface_convection_boundary_velocity (side : list qpt) (bv : (nat -> R) -> nat -> R)
    (h amb : lfun) (t : R) (sol : vec) (f : vec) : vec :=
  fold_left (fun f q => fun a =>
    f a + jxw_vn bv q * phi q a * lval h t (xyz q) * (interp q sol - lval amb t (xyz q))) side f.

(** surface_radiation_residual, cpp:1404-1513; the last three are Parameters, the same at all points *)
Definition here : nat -> R := fun _ => 0.
Definition surface_radiation_residual (sec : bool) (qs : list qpt) (eps amb zero_ref sbc : lfun) (t : R)
    (sol : vec) (req : bool) (fj : vec * matrix) : vec * matrix :=
  let sb := lval sbc t here in let am := lval amb t here in let zr := lval zero_ref t here in
  fold_left (fun fj q =>
    let '(f, jac) := fj in
    let th := thick sec t q in
    let em := lval eps t (xyz q) in
    let T := interp q sol in
    (fun a => f a + jxw q * phi q a * sb * em * th * ((T + zr) ^ 4 - (am + zr) ^ 4),
     if req then add_mass (jxw q * sb * em * th * 4 * (T + zr) ^ 3) q jac else jac)) qs fj.
(** surface_radiation_residual_sensitivity, cpp:1525-1631 *)
Definition surface_radiation_residual_sensitivity (sec : bool) (qs : list qpt) (eps amb zero_ref sbc : lfun)
    (t : R) (sol : vec) (f : vec) : vec :=
  let sb := lval sbc t here in let am := lval amb t here in let zr := lval zero_ref t here in
  fold_left (fun f q => fun a =>
    let th := thick sec t q in let dth := dthick sec t q in
    let em := lval eps t (xyz q) in let dem := l_par eps t (xyz q) in
    f a + jxw q * phi q a * sb * (dem * th + em * dth) * ((interp q sol + zr) ^ 4 - (am + zr) ^ 4)) qs f.
(** surface_radiation_boundary_velocity, cpp:1636-1704 *)
Definition surface_radiation_boundary_velocity (side : list qpt) (bv : (nat -> R) -> nat -> R)
    (eps amb zero_ref sbc : lfun) (t : R) (sol : vec) (f : vec) : vec :=
  let sb := lval sbc t here in let am := lval amb t here in let zr := lval zero_ref t here in
  fold_left (fun f q => fun a =>
    f a + jxw_vn bv q * phi q a * sb * lval eps t (xyz q) * ((interp q sol + zr) ^ 4 - (am + zr) ^ 4)) side f.

(** volume_heat_source_residual, cpp:1711-1747; _sensitivity, cpp:1751-1797; _boundary_velocity,
    cpp:1800-1858 *)
Definition volume_heat_source_residual (qs : list qpt) (g : lfun) (t : R) (f : vec) : vec :=
  fold_left (fun f q => fun a => f a - jxw q * phi q a * lval g t (xyz q) * thick true t q) qs f.
Definition volume_heat_source_residual_sensitivity (qs : list qpt) (g : lfun) (t : R) (f : vec) : vec :=
  fold_left (fun f q => fun a => f a - jxw q * phi q a *
    (l_par g t (xyz q) * thick true t q + lval g t (xyz q) * dthick true t q)) qs f.
Definition volume_heat_source_boundary_velocity (side : list qpt) (bv : (nat -> R) -> nat -> R) (g : lfun)
    (t : R) (f : vec) : vec :=
  fold_left (fun f q => fun a => f a - jxw_vn bv q * phi q a * lval g t (xyz q) * thick true t q) side f.

(** ** Dispatch.  The loads of each side, as external_side_loads_for_quadrature_elem lists them (not
    modelled), come with the side's quadrature points. *)
(** side_external_residual, cpp:250-306, one load *)
Definition side_load (qs : list qpt) (t : R) (sol : vec) (req : bool) (b : bc) (fj : vec * matrix)
    : outcome (vec * matrix) :=
  match b with
  | HeatFlux g => Ok (surface_flux_residual true qs g t (fst fj), snd fj)
  | Convection h amb => Ok (surface_convection_residual true qs h amb t sol req fj)
  | Radiation e amb z sb => Ok (surface_radiation_residual true qs e amb z sb t sol req fj)
  | Dirichlet => Ok fj
  | HeatSource _ | OtherBC => Fault LibError
  end.
Definition side_load_sens (qs : list qpt) (t : R) (sol : vec) (b : bc) (f : vec) : outcome vec :=
  match b with
  | HeatFlux g => Ok (surface_flux_residual_sensitivity true qs g t f)
  | Convection h amb => Ok (surface_convection_residual_sensitivity true qs h amb t sol f)
  | Radiation e amb z sb => Ok (surface_radiation_residual_sensitivity true qs e amb z sb t sol f)
  | Dirichlet => Ok f
  | HeatSource _ | OtherBC => Fault LibError
  end.
(** volume_external_residual, cpp:312-366; _sensitivity, cpp:429-480 *)
Definition volume_load (qs : list qpt) (t : R) (sol : vec) (req : bool) (b : bc) (fj : vec * matrix)
    : outcome (vec * matrix) :=
  match b with
  | HeatFlux g => Ok (surface_flux_residual false qs g t (fst fj), snd fj)
  | Convection h amb => Ok (surface_convection_residual false qs h amb t sol req fj)
  | Radiation e amb z sb => Ok (surface_radiation_residual false qs e amb z sb t sol req fj)
  | HeatSource g => Ok (volume_heat_source_residual qs g t (fst fj), snd fj)
  | Dirichlet | OtherBC => Fault LibError
  end.
Definition volume_load_sens (qs : list qpt) (t : R) (sol : vec) (b : bc) (f : vec) : outcome vec :=
  match b with
  | HeatFlux g => Ok (surface_flux_residual_sensitivity false qs g t f)
  | Convection h amb => Ok (surface_convection_residual_sensitivity false qs h amb t sol f)
  | Radiation e amb z sb => Ok (surface_radiation_residual_sensitivity false qs e amb z sb t sol f)
  | HeatSource g => Ok (volume_heat_source_residual_sensitivity qs g t f)
  | Dirichlet | OtherBC => Fault LibError
  end.
(** volume_external_residual_boundary_velocity, cpp:486-548 *)
Definition volume_load_bv (side : list qpt) (bv : (nat -> R) -> nat -> R) (t : R) (sol : vec) (b : bc)
    (f : vec) : outcome vec :=
  match b with
  | HeatFlux g => Ok (surface_flux_boundary_velocity side bv g t f)
  | Convection h amb => Ok (surface_convection_boundary_velocity side bv h amb t sol f)
  | Radiation e amb z sb => Ok (surface_radiation_boundary_velocity side bv e amb z sb t sol f)
  | HeatSource g => Ok (volume_heat_source_boundary_velocity side bv g t f)
  | Dirichlet | OtherBC => Fault LibError
  end.
Fixpoint each {A B} (step : A -> B -> outcome B) (l : list A) (s : B) : outcome B :=
  match l with [] => Ok s | x :: t => s <- step x s ;; each step t s end.

(** ** Element operations *)
(** what one element has: its points, its sides with their loads, the loads of its subdomain *)
Record hload : Type := mkHL {
  points : list qpt;
  sides : list (list qpt * list bc);
  volume : list bc }.
Definition side_external_residual (h : hload) (t : R) (sol : vec) (req : bool) : vec * matrix -> outcome (vec * matrix) :=
  each (fun s fj => each (side_load (fst s) t sol req) (snd s) fj) (sides h).
Definition volume_external_residual (h : hload) (t : R) (sol : vec) (req : bool) : vec * matrix -> outcome (vec * matrix) :=
  each (volume_load (points h) t sol req) (volume h).
(** nonlinear_assembly.cpp:79-96 *)
Definition elem_calculations (h : hload) (t : R) (sol : vec) (req : bool) : outcome (vec * matrix) :=
  let fj := internal_residual (points h) t sol req (zero, mzero) in
  fj <- side_external_residual h t sol req fj ;;
  volume_external_residual h t sol req fj.
(** nonlinear_assembly.cpp:101-117 *)
Definition elem_sensitivity_calculations (h : hload) (t : R) (sol : vec) : outcome vec :=
  let f := internal_residual_sensitivity (points h) t sol zero in
  f <- each (fun s f => each (side_load_sens (fst s) t sol) (snd s) f) (sides h) f ;;
  each (volume_load_sens (points h) t sol) (volume h) f.
(** nonlinear_assembly.cpp:121-153, with a boundary velocity on side [s] *)
Definition elem_topology_sensitivity_calculations (side : list qpt) (bv : (nat -> R) -> nat -> R)
    (loads : list bc) (t : R) (sol : vec) : outcome vec :=
  let f := internal_residual_boundary_velocity side bv t sol zero in
  each (volume_load_bv side bv t sol) loads f.
(** transient_assembly.cpp:46-75: f_m, f_x, d f_m/d xdot, d f_m/dx, d f_x/dx *)
Definition elem_calculations_transient (h : hload) (t : R) (sol vel : vec) (req : bool)
    : outcome (vec * vec * matrix * matrix * matrix) :=
  fj <- elem_calculations h t sol req ;;
  let '(fm, jxd, jm) := velocity_residual (points h) t sol vel req zero mzero mzero in
  Ok (fm, fst fj, jxd, jm, snd fj).
(** transient_assembly.cpp:89-114 *)
Definition elem_sensitivity_calculations_transient (h : hload) (t : R) (sol vel : vec) : outcome (vec * vec) :=
  fx <- elem_sensitivity_calculations h t sol ;;
  Ok (velocity_residual_sensitivity (points h) t sol vel zero, fx).
End Element.
