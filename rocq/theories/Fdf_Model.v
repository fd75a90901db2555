(** Model of the flow element for small harmonic motions, /repo/src/fluid/frequency_domain_linearized_conservative_fluid_elem.cpp, with
    its frequency, /repo/src/aeroelasticity/frequency_function.cpp.
    A complex vector or matrix is the pair of its real and imaginary part; the matrices of the steady element are those of Cfe_Model
    (inviscid).  The perturbed state of small_disturbance_primitive_fluid_solution.cpp is computed by real coefficients, hence part by
    part.  [a.dot(b)] of Eigen conjugates its first argument. *)
From Coq Require Import List Arith Bool Reals.
From Verif Require Import Base RBool Flui_Model Cfe_Model.
Import ListNotations.
Open Scope R_scope.

Definition cvec : Type := (evec * evec)%type.
Definition cmat : Type := (emat * emat)%type.
Definition v3 : Type := (vec * vec)%type.

(** frequency_function.cpp L48-62 operator(), L67-86 derivative, L91-103 nondimensionalizing_factor; [ff_dom] is what the frequency
    gives as its derivative for the parameter at hand *)
Record freqfn : Type := mkFq { ff_red : bool; ff_om : R; ff_vel : R; ff_ref : R; ff_dom : R }.
Definition ff_factor (f : freqfn) : outcome R :=
  if ff_red f then if reqb (ff_vel f) 0 then Fault DivByZero else Ok (ff_ref f / ff_vel f) else Ok 1.

Definition ev_add (a b : evec) : evec := fun v k => a v k + b v k.
Definition em_add (a b : emat) : emat := fun v k v' k' => a v k v' k' + b v k v' k'.
Definition em_scale (c : R) (a : emat) : emat := fun v k v' k' => c * a v k v' k'.
Definition c_add (a b : cvec) : cvec := (ev_add (fst a) (fst b), ev_add (snd a) (snd b)).
Definition cm_add (a b : cmat) : cmat := (em_add (fst a) (fst b), em_add (snd a) (snd b)).

Section Fdf.
Variables (d : nat) (cp cv : R) (nphi : nat).
(** complex matrix times complex vector *)
Definition cmul (J : cmat) (z : cvec) : cvec :=
  (fun v k => emul d nphi (fst J) (fst z) v k - emul d nphi (snd J) (snd z) v k,
   fun v k => emul d nphi (fst J) (snd z) v k + emul d nphi (snd J) (fst z) v k).

(** internal_residual, L60-128; the rate of the base flow is zero, complex_assembly_base.cpp L510 *)
Definition fd_matrices (tau_of : fpt -> prim -> mx) (shock : option (fpt -> evec -> vec)) (qps : list fpt) (x : evec) : outcome (emat * emat) :=
  k <- internal_residual d cp cv nphi tau_of shock qps x ;;
  m <- velocity_residual d cp cv nphi tau_of qps x ev0 ;;
  Ok (em_add (snd k) (snd m), snd (fst m)).
Definition fd_internal (fr : option freqfn) (asked : bool) (tau_of : fpt -> prim -> mx) (shock : option (fpt -> evec -> vec))
    (qps : list fpt) (x : evec) (z : cvec) (acc : cvec * cmat) : outcome (cvec * cmat) :=
  match fr with
  | None => Fault NullDeref
  | Some f =>
    b <- ff_factor f ;;
    km <- fd_matrices tau_of shock qps x ;;
    let J := (em_scale b (fst km), em_scale (ff_om f) (snd km)) in
    Ok (c_add (fst acc) (cmul J z), if asked then cm_add (snd acc) J else snd acc)
  end.
(** internal_residual_sensitivity, L134-217, without the matrix *)
Definition fd_internal_sens (fr : option freqfn) (tau_of : fpt -> prim -> mx) (shock : option (fpt -> evec -> vec))
    (qps : list fpt) (x : evec) (z zs : cvec) (acc : cvec) : outcome cvec :=
  match fr with
  | None => Fault NullDeref
  | Some f =>
    b <- ff_factor f ;;
    km <- fd_matrices tau_of shock qps x ;;
    let J := (em_scale b (fst km), em_scale (ff_om f) (snd km)) in
    let S := (em0, em_scale (ff_dom f) (snd km)) in
    Ok (c_add acc (c_add (cmul S z) (cmul J zs)))
  end.

(** ** the oscillating wall *)
(** conj(a) . b over three components *)
Definition edot (a b : v3) : R * R :=
  (sum 3 (fun i => fst a i * fst b i + snd a i * snd b i), sum 3 (fun i => fst a i * snd b i - snd a i * fst b i)).
Definition rv (a : vec) : v3 := (a, fun _ => 0).
Definition vplus (a b : vec) : vec := fun i => a i + b i.
Definition duvec (p : pert) : vec :=
  fun i => match i with 0%nat => d_u1 p | 1%nat => if Nat.ltb 1 d then d_u2 p else 0 | 2%nat => if Nat.ltb 2 d then d_u3 p else 0 | _ => 0 end.
(** what the condition provides: velocity, rotation of the normal, displacement, and the complex displacement and rotation *)
Record fslip : Type := mkFs { fs_vel : option (fpt -> vec); fs_rot : option (fpt -> vec); fs_disp : option (fpt -> vec);
  fs_dw : option (fpt -> v3); fs_dn : option (fpt -> v3) }.
Definition at_c (o : option (fpt -> v3)) (q : fpt) : v3 := match o with None => rv (fun _ => 0) | Some h => h q end.
Definition wall_dw (b : fslip) (q : fpt) : v3 := at_c (fs_dw b) q.
Definition wall_dn (b : fslip) (q : fpt) : v3 := match fs_dw b with None => rv (fun _ => 0) | Some _ => at_c (fs_dn b) q end.
(** slip_wall_surface_residual, L460-730: the flux at a point with base state U, s and perturbation dU *)
Definition wall_speed0 (b : fslip) (q : fpt) (s : prim) : R :=
  let ni := pad d (fq_n q) in
  dot3 (at_pt (fs_vel b) q) (vplus ni (at_pt (fs_rot b) q)) - dot3 (uvec d s) (at_pt (fs_rot b) q).
Definition wall_point (bV om : R) (b : fslip) (q : fpt) (U : vec) (s : prim) (dU : v3) : v3 :=
  let ni := pad d (fq_n q) in
  let dn := at_pt (fs_rot b) q in
  let ui := wall_speed0 b q s in
  let pr := pert_of d cp cv false s (fst dU) in
  let pi := pert_of d cp cv false s (snd dU) in
  let c := edot (wall_dw b q) (rv (vplus ni dn)) in
  let dep := (- om * snd c, om * fst c) in
  let c1 := edot (rv (at_pt (fs_vel b) q)) (wall_dn b q) in
  let c2 := edot (rv (uvec d s)) (wall_dn b q) in
  let c3 := edot (duvec pr, duvec pi) (rv dn) in
  let ind := (fst c1 - fst c2 - fst c3, snd c1 - snd c2 - snd c3) in
  let sr := fst ind * bV + fst dep in
  let si := snd ind * bV + snd dep in
  (fun v => ui * bV * fst dU v + (if Nat.eqb v (d + 1) then ui * bV * d_p pr else 0)
          + sr * U v + (if Nat.eqb v (d + 1) then sr * p_p s else 0)
          + (if (Nat.ltb 0 v && Nat.leb v d)%bool then d_p pr * bV * ni (v - 1)%nat else 0),
   fun v => ui * bV * snd dU v + (if Nat.eqb v (d + 1) then ui * bV * d_p pi else 0)
          + si * U v + (if Nat.eqb v (d + 1) then si * p_p s else 0)
          + (if (Nat.ltb 0 v && Nat.leb v d)%bool then d_p pi * bV * ni (v - 1)%nat else 0)).
Definition wall_step (bV om : R) (asked : bool) (b : fslip) (x : evec) (z : cvec) (q : fpt) (acc : cvec * cmat) : outcome (cvec * cmat) :=
  let U := fe_U nphi q x in
  s <- prim_init d cp cv false U ;;
  let fl := wall_point bV om b q U s (fe_U nphi q (fst z), fe_U nphi q (snd z)) in
  let g := (add_vec (fq_w q) (fq_N q) (fst fl) (fst (fst acc)), add_vec (fq_w q) (fq_N q) (snd fl) (snd (fst acc))) in
  if asked then
    J <- wall_jac d (cp - cv) cv s (wall_speed0 b q s) (fq_n q) (at_pt (fs_rot b) q) ;;
    Ok (g, (add_mat (fq_w q * bV) (fq_N q) J (fq_N q) (fst (snd acc)), snd (snd acc)))
  else Ok (g, snd acc).
Definition wall_side (bV om : R) (asked : bool) (b : fslip) (x : evec) (z : cvec) (qps : list fpt) (acc : cvec * cmat) : outcome (cvec * cmat) :=
  match fs_dw b, fs_dn b with
  | Some _, None => Fault AssertFailed
  | _, _ => over (wall_step bV om asked b x z) qps acc
  end.
(** slip_wall_surface_residual_sensitivity, L740-900: only the frequency varies; the rotation of the normal is read if there is a
    displacement, not a velocity *)
Definition wall_sens_step (dom : R) (b : fslip) (x : evec) (q : fpt) (acc : cvec) : outcome cvec :=
  let U := fe_U nphi q x in
  s <- prim_init d cp cv false U ;;
  let ni := pad d (fq_n q) in
  let dn := match fs_disp b with None => fun _ => 0 | Some _ => at_pt (fs_rot b) q end in
  let c := edot (wall_dw b q) (rv (vplus ni dn)) in
  let dep := (- dom * snd c, dom * fst c) in
  let fl := fun t v => t * U v + (if Nat.eqb v (d + 1) then t * p_p s else 0) in
  Ok (add_vec (fq_w q) (fq_N q) (fl (fst dep)) (fst acc), add_vec (fq_w q) (fq_N q) (fl (snd dep)) (snd acc)).
Definition wall_sens_side (dom : R) (b : fslip) (x : evec) (qps : list fpt) (acc : cvec) : outcome cvec :=
  match fs_disp b, fs_rot b, fs_dw b, fs_dn b with
  | Some _, None, _, _ => Fault AssertFailed
  | _, _, Some _, None => Fault AssertFailed
  | _, _, _, _ => over (wall_sens_step dom b x) qps acc
  end.

(** ** side_external_residual, L222-343, and its sensitivity, L350-455, over the pairs of points of a side and condition *)
Inductive fdside : Type := FdSymmetry | FdSlip (b : fslip) | FdFar (inf : fpt -> vec) | FdDirichlet | FdOther.
(** the steady matrix of a side that does not move, from zero *)
Definition still_matrix (x : evec) (qps : list fpt) (s : fside) : outcome emat :=
  fj <- side_step d cp cv nphi x (qps, s) (ev0, em0) ;; Ok (snd fj).
Definition add_still (b : R) (asked : bool) (J : emat) (z : cvec) (acc : cvec * cmat) : cvec * cmat :=
  let J := (em_scale b J, em0) in (c_add (fst acc) (cmul J z), if asked then cm_add (snd acc) J else snd acc).
Definition fd_side (bV om : R) (asked : bool) (x : evec) (z : cvec) (sc : list fpt * fdside) (acc : cvec * cmat) : outcome (cvec * cmat) :=
  match snd sc with
  | FdSymmetry => J <- still_matrix x (fst sc) SymmetryWall ;; Ok (add_still bV asked J z acc)
  | FdSlip b => wall_side bV om asked b x z (fst sc) acc
  | FdFar inf => J <- still_matrix x (fst sc) (FarField inf) ;; Ok (add_still bV asked J z acc)
  | FdDirichlet => Ok acc
  | FdOther => Fault LibError
  end.
Definition fd_sides (fr : option freqfn) (asked : bool) (sides : list (list fpt * fdside)) (x : evec) (z : cvec) (acc : cvec * cmat) : outcome (cvec * cmat) :=
  match fr with
  | None => Fault NullDeref
  | Some f => b <- ff_factor f ;; over (fd_side b (ff_om f) asked x z) sides acc
  end.
Definition fd_side_sens (bV dom : R) (x : evec) (zs : cvec) (sc : list fpt * fdside) (acc : cvec) : outcome cvec :=
  match snd sc with
  | FdSymmetry => J <- still_matrix x (fst sc) SymmetryWall ;; Ok (c_add acc (cmul (em_scale bV J, em0) zs))
  | FdSlip b => wall_sens_side dom b x (fst sc) acc
  | FdFar inf => J <- still_matrix x (fst sc) (FarField inf) ;; Ok (c_add acc (cmul (em_scale bV J, em0) zs))
  | FdDirichlet => Ok acc
  | FdOther => Fault LibError
  end.
Definition fd_sides_sens (fr : option freqfn) (sides : list (list fpt * fdside)) (x : evec) (zs : cvec) (acc : cvec) : outcome cvec :=
  match fr with
  | None => Fault NullDeref
  | Some f => b <- ff_factor f ;; over (fd_side_sens b (ff_dom f) x zs) sides acc
  end.
End Fdf.
