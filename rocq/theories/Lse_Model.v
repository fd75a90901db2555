(** Model of the level-set element, /repo/src/level_set/level_set_elem_base.cpp, of the outputs built on it,
    level_set_volume_output.cpp and level_set_perimeter_output.cpp, of the element operations that assemble
    it, level_set_transient_assembly.cpp, and of the interface velocity and normal,
    level_set_boundary_velocity.cpp.
    The finite element data at the quadrature points are data of the model: libMesh and MAST::FEBase are not
    modelled.  FEMOperatorMatrix with one variable (reinit(1, phi), cpp:765-795) is used through what its
    operations compute, see C01 - C03.  Values are exact reals; a division by zero, which gives infinite
    values or NaN in floating point, is the outcome [Fault DivByZero]. *)
From Coq Require Import List Arith Bool Reals.
From Verif Require Import Base RBool Sens_Model.
Import ListNotations.
Open Scope R_scope.

(** one quadrature point of the element or of a side *)
Record lpt : Type := mkLpt {
  lw : R;                             (* JxW[qp] *)
  lx : nat -> R;                      (* xyz[qp] *)
  lN : nat -> R;                      (* phi[node][qp] *)
  ldN : nat -> nat -> R;              (* dphi[node][qp](direction) *)
  lxi : nat -> nat -> R }.            (* _calculate_dxidX, cpp:689-760: d xi_i / d x_j *)

(** Eigen's norm() *)
Definition norm (d : nat) (v : nat -> R) : R := sqrt (sum d (fun i => v i ^ 2)).
Definition tol : R := / 1000000.

Section Element.
Variables (n dim : nat).                       (* shape functions, _elem.dim() *)

(** Bmat.right_multiply(., v) and dBmat[j].right_multiply(., v) *)
Definition interp (q : lpt) (v : vec) : R := sum n (fun a => lN q a * v a).
Definition slope (q : lpt) (v : vec) (j : nat) : R := sum n (fun a => ldN q a j * v a).

(** _velocity_and_source, cpp:546-597.  [vel] is the normal speed _phi_vel, [ref] is _ref_sol with its
    size. *)
Definition velocity_and_source (propagation : bool) (Vn : (nat -> R) -> R -> R) (ref : nat * vec)
    (time : R) (sol : vec) (q : lpt) : outcome ((nat -> R) * R) :=
  let g := norm dim (slope q sol) in
  if propagation then
    if reqb g 0 then Fault DivByZero                      (* -Vn/grad_phi.norm() *)
    else Ok (fun j => slope q sol j * (- Vn (lx q) time / g), 0)
  else
    assert_ (fst ref =? n)%nat (
    let r := interp q (snd ref) in
    let den := sqrt (r ^ 2 + tol * g ^ 2) in
    if reqb den 0 then Fault DivByZero
    else
      let source := r / den in
      Ok (if rltb tol g then (fun j => slope q sol j * source / g) else (fun _ => 0), source)).

(** _tau, cpp:600-637 *)
Definition tau (q : lpt) (vel : nat -> R) : outcome R :=
  if rltb tol (norm dim vel) then
    let val1 := fold_left (fun s a => s + Rabs (sum dim (fun j => ldN q a j * vel j))) (seq 0 n) 0 in
    if reqb val1 0 then Fault DivByZero else Ok (1 / val1)
  else Ok 0.

(** _dc_operator, cpp:642-684 *)
Definition dc_operator (q : lpt) (sol : vec) (vel : nat -> R) : R :=
  let dflux := sum dim (fun i => vel i * slope q sol i) in
  let val1 := fold_left (fun s i => s + (sum dim (fun j => lxi q i j * slope q sol j)) ^ 2) (seq 0 dim) tol in
  1/2 * Rabs dflux / sqrt val1.

(** mat2_n1n2: V . grad of shape function a *)
Definition along (q : lpt) (vel : nat -> R) (a : nat) : R :=
  fold_left (fun s j => s + ldN q a j * vel j) (seq 0 dim) 0.

Variables (propagation : bool) (phi_vel : option ((nat -> R) -> R -> R)) (ref : nat * vec) (time : R).

(** internal_residual, cpp:63-152: one pass of the loop over the quadrature points *)
Definition internal_qp (Vn : (nat -> R) -> R -> R) (sol : vec) (req : bool) (fj : vec * matrix) (q : lpt)
    : outcome (vec * matrix) :=
  let '(f, jac) := fj in
  vs <- velocity_and_source propagation Vn ref time sol q ;;
  let '(vel, source) := vs in
  t <- tau q vel ;;
  let dc := dc_operator q sol vel in
  let flux := fold_left (fun s j => s + vel j * slope q sol j) (seq 0 dim) 0 - source in
  let f := fun a => f a + lw q * (lN q a * flux) in
  let f := fun a => f a + lw q * along q vel a * t * flux in
  let f := fold_left (fun f j => fun a => f a + lw q * dc * (ldN q a j * slope q sol j)) (seq 0 dim) f in
  if req then
    let jac := fold_left (fun g j => fun a b =>
        g a b + lw q * vel j * (lN q a * ldN q b j) + lw q * dc * (ldN q a j * ldN q b j)) (seq 0 dim) jac in
    Ok (f, fun a b => jac a b + lw q * along q vel a * t * along q vel b)
  else Ok (f, jac).
Fixpoint over {S : Type} (body : S -> lpt -> outcome S) (qs : list lpt) (s : S) : outcome S :=
  match qs with [] => Ok s | q :: qs => s' <- body s q ;; over body qs s' end.
Definition internal_residual (qs : list lpt) (sol : vec) (req : bool) (f : vec) (jac : matrix)
    : outcome (vec * matrix) :=
  match phi_vel with
  | None => Fault AssertFailed
  | Some Vn => over (internal_qp Vn sol req) qs (f, jac)
  end.

(** velocity_residual, cpp:158-229; [jac] is left alone *)
Definition velocity_qp (Vn : (nat -> R) -> R -> R) (sol vel_t : vec) (req : bool) (fj : vec * matrix)
    (q : lpt) : outcome (vec * matrix) :=
  let '(f, jac_xdot) := fj in
  vs <- velocity_and_source propagation Vn ref time sol q ;;
  let '(vel, _) := vs in
  t <- tau q vel ;;
  let rate := interp q vel_t in
  let f := fun a => f a + lw q * (lN q a * rate) in
  let f := fun a => f a + lw q * along q vel a * t * rate in
  if req then
    let j := fun a b => jac_xdot a b + lw q * (lN q a * lN q b) in
    Ok (f, fun a b => j a b + lw q * (along q vel a * t * lN q b))
  else Ok (f, jac_xdot).
Definition velocity_residual (qs : list lpt) (sol vel_t : vec) (req : bool) (f : vec) (jac_xdot jac : matrix)
    : outcome (vec * matrix * matrix) :=
  match phi_vel with
  | None => Fault AssertFailed
  | Some Vn => fj <- over (velocity_qp Vn sol vel_t req) qs (f, jac_xdot) ;; Ok (fst fj, snd fj, jac)
  end.

(** side_external_residual and volume_external_residual, cpp:232-257: libmesh_assert(false), which does
    nothing in a build without assertions *)
Definition external_residual {A} (debug : bool) (f : A) : outcome A :=
  if debug then Fault AssertFailed else Ok f.
(** elem_calculations, level_set_transient_assembly.cpp:56-84: f_m, f_x, f_m_jac_xdot, f_m_jac, f_x_jac *)
Definition elem_calculations (debug : bool) (qs : list lpt) (sol vel_t : vec) (if_jac : bool)
    : outcome (vec * vec * matrix * matrix * matrix) :=
  let z := fun _ : nat => 0 in
  let zz := fun _ _ : nat => 0 in
  fx <- internal_residual qs sol if_jac z zz ;;
  fx <- external_residual debug fx ;;
  fx <- external_residual debug fx ;;
  fm <- velocity_residual qs sol vel_t if_jac z zz zz ;;
  let '(m, mx, mj) := fm in
  Ok (m, fst fx, mx, mj, snd fx).

(** volume, cpp:314-343 *)
Definition volume (qs : list lpt) (sol : vec) : R :=
  fold_left (fun v q => if rltb 0 (interp q sol) then v + lw q else v) qs 0.
(** homogenized_volume_fraction, cpp:346-379; acos(-1.) is taken to be pi *)
Definition homogenized_volume_fraction (qs : list lpt) (sol : vec) (delta : R) : outcome R :=
  if reqb delta 0 then Fault DivByZero else
  let vol := fold_left (fun v q => v + lw q) qs 0 in
  let heav := fold_left (fun h q => h + 1/2 * (1 + 2 / PI * atan (interp q sol / delta)) * lw q) qs 0 in
  if reqb vol 0 then Fault DivByZero else Ok (heav / vol).
(** homogenized_volume_fraction_sensitivity, cpp:382-417 *)
Definition homogenized_volume_fraction_sensitivity (qs : list lpt) (sol dsol : vec) (delta : R) : outcome R :=
  if reqb delta 0 then Fault DivByZero else
  let vol := fold_left (fun v q => v + lw q) qs 0 in
  let heav := fold_left (fun h q =>
    h + 1 / PI / delta / (1 + (interp q sol / delta) ^ 2) * interp q dsol * lw q) qs 0 in
  if reqb vol 0 then Fault DivByZero else Ok (heav / vol).
(** perimeter, cpp:420-450 *)
Definition perimeter (qs : list lpt) (sol : vec) (d : R) : outcome R :=
  if reqb d 0 then Fault DivByZero else
  Ok (fold_left (fun p q => p + 1 / PI / d / (1 + (interp q sol / d) ^ 2) * lw q) qs 0).
(** perimeter_sensitivity, cpp:453-486 *)
Definition perimeter_sensitivity (qs : list lpt) (sol dsol : vec) (d : R) : outcome R :=
  if reqb d 0 then Fault DivByZero else
  Ok (fold_left (fun p q =>
    p - 2 * interp q sol / PI / d ^ 3 / (1 + (interp q sol / d) ^ 2) ^ 2 * interp q dsol * lw q) qs 0).
(** volume_boundary_velocity_on_side, cpp:490-542, on the quadrature points of the side *)
Definition volume_boundary_velocity (side : list lpt) (sol dsol : vec) : outcome R :=
  over (fun dv q =>
    let g := norm dim (slope q sol) in
    if reqb g 0 then Fault DivByZero else Ok (dv + interp q dsol / g * lw q)) side 0.

(** ** The outputs *)
(** an element as the outputs see it: whether it is evaluated (if_evaluate_for_element), whether it is cut
    by the level set (if_elem_has_level_set_boundary), and the quadrature points of the side that lies on
    the level set, if it has one (if_subelem_has_side_on_level_set_boundary) *)
Record oelem : Type := mkOe {
  o_here : bool; o_cut : bool; o_side : option (list lpt); o_qs : list lpt; o_sol : vec; o_dsol : vec }.

Definition on_boundary (e : oelem) : option (list lpt) :=
  if o_here e && o_cut e then o_side e else None.
(** _vol and _dvol_dp, or _per and _dper_dp *)
Definition ostate : Type := (R * R)%type.
Definition zero_out : ostate := (0, 0).        (* zero_for_analysis, zero_for_sensitivity *)

(** LevelSetVolume: output_for_elem (72-86), evaluate (141-153), output_sensitivity_for_elem (105-123),
    evaluate_topology_sensitivity (176-208) *)
Definition volume_for_elem (e : oelem) : R := if o_here e then volume (o_qs e) (o_sol e) else 0.
Definition volume_evaluate (e : oelem) (s : ostate) : outcome ostate :=
  Ok (if o_here e then (fst s + volume (o_qs e) (o_sol e), snd s) else s).
Definition volume_sensitivity_for_elem (e : oelem) : outcome R :=
  match on_boundary e with
  | Some side => volume_boundary_velocity side (o_sol e) (o_dsol e)
  | None => Ok 0
  end.
Definition volume_topology_sensitivity (topology : bool) (e : oelem) (s : ostate) : outcome ostate :=
  assert_ topology
    (match on_boundary e with
     | Some side => v <- volume_boundary_velocity side (o_sol e) (o_dsol e) ;; Ok (fst s, snd s + v)
     | None => Ok s
     end).
(** LevelSetPerimeter: output_for_elem (78-92), evaluate (147-159), output_sensitivity_for_elem (111-129),
    evaluate_topology_sensitivity (181-206) *)
Definition perimeter_for_elem (d : R) (e : oelem) : outcome R :=
  if o_here e then perimeter (o_qs e) (o_sol e) d else Ok 0.
Definition perimeter_evaluate (d : R) (e : oelem) (s : ostate) : outcome ostate :=
  if o_here e then p <- perimeter (o_qs e) (o_sol e) d ;; Ok (fst s + p, snd s) else Ok s.
Definition perimeter_sensitivity_for_elem (d : R) (e : oelem) : outcome R :=
  match on_boundary e with
  | Some _ => perimeter_sensitivity (o_qs e) (o_sol e) (o_dsol e) d
  | None => Ok 0
  end.
Definition perimeter_topology_sensitivity (d : R) (topology : bool) (e : oelem) (s : ostate) : outcome ostate :=
  assert_ topology
    (if o_here e then p <- perimeter_sensitivity (o_qs e) (o_sol e) (o_dsol e) d ;; Ok (fst s, snd s + p)
     else Ok s).

(** the assembly's loop over the elements of one processor *)
Fixpoint on_elems (step : oelem -> ostate -> outcome ostate) (es : list oelem) (s : ostate) : outcome ostate :=
  match es with [] => Ok s | e :: es => s' <- step e s ;; on_elems step es s' end.
(** the loop on every processor *)
Fixpoint on_ranks (step : oelem -> ostate -> outcome ostate) (rs : list (list oelem)) : outcome (list ostate) :=
  match rs with
  | [] => Ok []
  | es :: rs => s <- on_elems step es zero_out ;; l <- on_ranks step rs ;; Ok (s :: l)
  end.
(** output_total and output_sensitivity_total as processor [k] sees them *)
Definition shared (skip_comm_sum : bool) (vals : list R) (k : nat) : R :=
  if skip_comm_sum then nth k vals 0 else lsum vals.
Definition output_total (skip : bool) (l : list ostate) (k : nat) : R := shared skip (map fst l) k.
Definition output_sensitivity_total (skip : bool) (l : list ostate) (k : nat) : R := shared skip (map snd l) k.

End Element.

(** ** level_set_boundary_velocity.cpp *)
(** What MeshFieldFunction returns at a point: its gradient always has three components
    (mesh_field_function.cpp:126), the matrix handed in is resized. *)
(** velocity, cpp:71-117 *)
Definition boundary_velocity (g : nat -> R) (dval : R) : outcome (nat -> R) :=
  let s := sum 3 (fun i => g i ^ 2) in
  if reqb s 0 then Fault DivByZero else Ok (fun i => - dval / s * g i).
(** normal_at_point, cpp:391-409; [m] is the size of the vector handed in *)
Definition normal_at_point (m : nat) (g : nat -> R) : outcome (nat -> R) :=
  if (m <? 3)%nat then Fault OutOfBounds else
  let v := fun i => if (i <? 3)%nat then - g i else 0 in
  let l := norm m v in
  if reqb l 0 then Fault DivByZero else Ok (fun i => v i / l).
(** normal_derivative_at_point, cpp:413-439; std::pow(v.dot(v), 1.5) as (v.v) sqrt(v.v) *)
Definition normal_derivative_at_point (m : nat) (g dg : nat -> R) : outcome (nat -> R) :=
  if (m <? 3)%nat then Fault OutOfBounds else
  let s := sum 3 (fun i => g i * g i) in
  if reqb s 0 then Fault DivByZero else
  Ok (fun i => if (i <? 3)%nat then
        - dg i / norm 3 g + sum 3 (fun k => g k * dg k) / (s * sqrt s) * g i else 0).

(** search_nearest_interface_point_old, cpp:181-360 *)
Definition point : Type := nat -> R.
Section Search.
(** (the level set function; None: the point lies outside the mesh and libMesh throws) and its gradient *)
Variables (ls : point -> option R) (dls : point -> option (nat -> R)).
(** FullPivLU(coeffs).solve(gradL) *)
Variable solve : matrix -> vec -> vec.
Variable dim : nat.
Definition stol : R := / 100000000.
(** _evaluate_point_search_obj, cpp:443-455 *)
Definition objective (p : point) (dv : nat -> R) : option R :=
  match ls dv with
  | Some v => Some (1/2 * sum 3 (fun i => (dv i - p i) ^ 2) + dv 3%nat * v)
  | None => None
  end.
Definition gradL (p : point) (dv : nat -> R) (v : R) (g : nat -> R) : vec :=
  fun i => if (i <? 3)%nat then (dv i - p i) + dv 3%nat * g i else v.
(** coeffs, cpp:258-265; hess stays zero since its update is commented out *)
Definition coeffs (g : nat -> R) : matrix :=
  fun i j => if (i <? 3)%nat && (j <? 3)%nat then (if (i =? j)%nat then 1 else 0)
             else if (i <? 3)%nat && (j =? 3)%nat then g i
             else if (i =? 3)%nat && (j <? 3)%nat then g j else 0.
(** the step length search, cpp:280-304: Some (dv1, L1), or None when ten halvings were not enough *)
Fixpoint step_search (p : point) (dv0 dx : nat -> R) (factor : R) (tries : nat) : option ((nat -> R) * R) :=
  let dv1 := fun i => dv0 i + 1/2 * factor * dx i in
  match objective p dv1 with
  | Some L1 => Some (dv1, L1)
  | None => match tries with
            | O | S O => None
            | S tries => step_search p dv0 dx (factor * (1/2)) tries
            end
  end.
(** what the loop hands back: [Ok v] the point written to v; libMesh's exception reaches the caller as
    [Fault LibError] *)
Definition top (dv : nat -> R) : nat -> R := fun i => if (i <? dim)%nat then dv i else 0.
(** one search; [sub] is what the search from a point does when it may not start another one, and [fuel]
    bounds the passes of the while loop.  [v0] is the vector handed in. *)
Fixpoint search_loop (sub : option (point -> (nat -> R) -> outcome (nat -> R))) (p : point) (v0 : nat -> R) (fuel : nat)
    (n_iters : nat) (p_opt : point) (dv0 : nat -> R) (L0 : R) : outcome (nat -> R) :=
  match fuel with
  | O => Fault OutOfFuel
  | S fuel =>
    match ls p_opt, dls p_opt with
    | Some v, Some g =>
      let gl := gradL p dv0 v g in
      let dx := fun i => - solve (coeffs g) gl i in
      match step_search p dv0 dx 1 10 with
      | None => Ok (fun i => if (i <? dim)%nat then dv0 i else v0 i)
      | Some (dv1, L1) =>
        (* with L0 = 0 the quotient is infinite or NaN and the comparison fails *)
        let stop := rleb (Rabs (norm 4 gl)) stol || (negb (reqb L0 0) && rleb (Rabs ((L1 - L0) / L0)) stol) in
        if (n_iters =? 80)%nat then
          match sub with
          | Some s => v' <- s dv1 v0 ;;
                      (match ls v' with
                       | Some _ => Ok (top (fun i => if (i <? 3)%nat then v' i else dv1 i))
                       | None => Fault LibError
                       end)
          | None => Ok (top dv1)
          end
        else if stop then Ok (top dv1)
        else search_loop sub p v0 fuel (S n_iters) dv1 dv1 L1
      end
    | _, _ => Fault LibError
    end
  end.
Definition start (p : point) : nat -> R := fun i => if (i <? 3)%nat then p i else 1.
Definition search_once (p : point) (v0 : nat -> R) : outcome (nat -> R) :=
  search_loop None p v0 81 0 p (start p) (10 ^ 12).
Definition search (p : point) (v0 : nat -> R) : outcome (nat -> R) :=
  search_loop (Some search_once) p v0 81 0 p (start p) (10 ^ 12).
End Search.
