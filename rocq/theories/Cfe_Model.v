(** Model of the compressible-flow element: residuals of the interior and of the sides, their matrices,
    and the integrated force on a boundary.
    Code: src/fluid/conservative_fluid_element_base.cpp, src/fluid/fluid_elem_base.cpp (L2475-2560),
    src/fluid/integrated_force_output.cpp.
    The pointwise fluxes and their matrices are those of Flui_Model.  Inviscid analyses (if_viscous()
    false) only.  A vector of the element is a table: entry (v, a) stands for the number v * n_phi + a,
    unknown v of shape function a, which is how FEMOperatorMatrix numbers them (FEMOp_Model). *)
From Coq Require Import List Arith Bool Reals.
From Verif Require Import Base RBool Flui_Model.
Import ListNotations.
Open Scope R_scope.

(** What the finite element gives at a quadrature point: weight, shape functions, their derivatives by
    direction, and, on sides, the outward normal and the place. *)
Record fpt := mkFpt { fq_w : R; fq_N : nat -> R; fq_dN : nat -> nat -> R; fq_n : vec; fq_x : vec }.
Definition evec := nat -> nat -> R.
Definition emat := nat -> nat -> nat -> nat -> R.
Definition ev0 : evec := fun _ _ => 0.
Definition em0 : emat := fun _ _ _ _ => 0.
(** A loop over quadrature points, sides or conditions. *)
Fixpoint over {X St : Type} (step : X -> St -> outcome St) (l : list X) (s : St) : outcome St :=
  match l with
  | [] => Ok s
  | x :: t => s' <- step x s ;; over step t s'
  end.
(** A loop over the directions that fills one matrix or vector for each. *)
Fixpoint each {A : Type} (dflt : A) (n : nat) (f : nat -> outcome A) : outcome (nat -> A) :=
  match n with
  | O => Ok (fun _ => dflt)
  | S k => g <- each dflt k f ;; x <- f k ;; Ok (upd g k x)
  end.

Section Cfe.
Variables (d : nat) (cp cv : R) (nphi : nat).
Definition nun : nat := (d + 2)%nat.
(** Bmat.right_multiply(v, x) and dBmat[c].vector_mult(v, x): the unknowns and their derivatives. *)
Definition fe_U (q : fpt) (x : evec) : vec := fun v => sum nphi (fun a => fq_N q a * x v a).
Definition fe_dU (q : fpt) (x : evec) (c : nat) : vec := fun v => sum nphi (fun a => fq_dN q c a * x v a).
(** f += w B^T g *)
Definition add_vec (w : R) (N : nat -> R) (g : vec) (f : evec) : evec := fun v a => f v a + w * (N a * g v).
(** jac += w B1^T M B2 *)
Definition add_mat (w : R) (N : nat -> R) (M : mx) (N' : nat -> R) (j : emat) : emat :=
  fun v a v' a' => j v a v' a' + w * (N a * M v v' * N' a').
(** jac * x for a vector x of the element (e.g. L325, f = jac * _delta_sol) *)
Definition emul (J : emat) (x : evec) : evec := fun v a => sum nun (fun v' => sum nphi (fun a' => J v a v' a' * x v' a')).

(** * The interior *)
(** fluid_elem_base.cpp L2475-2560 calculate_differential_operator_matrix: the least-squares operator
    tau^T (sum A_i^T dB_i) and the derivative of its product with the strong residual [r].  [tau] comes
    from calculate_barth_tau_matrix (L1876-1948), which is not modelled; it sets tau_sens to zero
    (L1941) and returns false, so the branch of a diagonal tau is not taken. *)
Definition ls_op (q : fpt) (A : nat -> mx) (tau : mx) : nat -> evec :=
  fun i v a => sum nun (fun k => tau k i * sum d (fun c => A c v k * fq_dN q c a)).
Definition ls_sens (q : fpt) (A : nat -> mx) (Sn : nat -> nat -> mx) (tau : mx) (r : vec) : emat :=
  fun v a v' a' => sum d (fun c => fq_N q a' * (fq_dN q c a * mvec nun (Sn c v') (mvec nun tau r) v)
                                 + fq_N q a' * (fq_dN q c a * mvec nun (A c) (mvec nun mx0 r) v)).
(** L200-240: A_sens, the derivative of the strong residual through the matrices A_i *)
Definition a_sens (q : fpt) (Sn : nat -> nat -> mx) (x : evec) : nat -> evec :=
  fun i v' a' => sum d (fun c => fq_N q a' * mvec nun (Sn c v') (fe_dU q x c) i).

(** L55-295 internal_residual at one quadrature point.  [shock] is None when
    flight_condition->enable_shock_capturing is false (dc stays zero), else the function that gives dc. *)
Definition vol_step (tau_of : fpt -> prim -> mx) (shock : option (fpt -> evec -> vec)) (x : evec) (q : fpt) (acc : evec * emat) : outcome (evec * emat) :=
  s <- prim_init d cp cv false (fe_U q x) ;;
  A <- each mx0 d (fun c => adv_jac d c (cp - cv) cv (cp / cv) s) ;;
  Sn <- each (fun _ => mx0) d (fun c => adv_jac_sens_cons d c (cp - cv) cv s) ;;
  F <- each (fun _ => 0) d (fun c => adv_flux d c s) ;;
  let g := fe_dU q x in
  let r := fun i => sum d (fun c => mvec nun (A c) (g c) i) in
  let tau := tau_of q s in
  let LS := ls_op q A tau in
  let LSs := ls_sens q A Sn tau r in
  let As := a_sens q Sn x in
  let dc := match shock with None => fun _ => 0 | Some h => h q x end in
  let w := fq_w q in
  let f := fun v a => fst acc v a
             + (sum d (fun c => - (w * (fq_dN q c a * F c v)) + w * dc c * (fq_dN q c a * g c v))
                + w * sum nun (fun i => LS i v a * r i)) in
  let j := fun v a v' a' => snd acc v a v' a'
             + (sum d (fun c => - (w * (fq_dN q c a * A c v v' * fq_N q a'))
                              + w * dc c * (if Nat.eqb v v' then fq_dN q c a * fq_dN q c a' else 0))
                + w * sum nun (fun i => LS i v a * sum d (fun c => A c i v' * fq_dN q c a'))
                + w * sum nun (fun i => LS i v a * As i v' a')
                + w * LSs v a v' a') in
  Ok (f, j).
Definition internal_residual (tau_of : fpt -> prim -> mx) (shock : option (fpt -> evec -> vec)) (qps : list fpt) (x : evec) : outcome (evec * emat) :=
  over (vol_step tau_of shock x) qps (ev0, em0).
(** L299-325 linearized_internal_residual: the matrix at the base flow times the perturbation *)
Definition linearized_internal (tau_of : fpt -> prim -> mx) (shock : option (fpt -> evec -> vec)) (qps : list fpt) (x dx : evec) : outcome (evec * emat) :=
  fj <- internal_residual tau_of shock qps x ;; Ok (emul (snd fj) dx, snd fj).

(** L332-440 velocity_residual: residual, matrix for the velocity, matrix for the solution (untouched) *)
Definition vel_step (tau_of : fpt -> prim -> mx) (x xd : evec) (q : fpt) (acc : evec * emat) : outcome (evec * emat) :=
  s <- prim_init d cp cv false (fe_U q x) ;;
  A <- each mx0 d (fun c => adv_jac d c (cp - cv) cv (cp / cv) s) ;;
  let LS := ls_op q A (tau_of q s) in
  let u := fe_U q xd in
  let w := fq_w q in
  let f := fun v a => fst acc v a + w * (fq_N q a * u v) + w * sum nun (fun i => LS i v a * u i) in
  let j := fun v a v' a' => snd acc v a v' a' + w * (if Nat.eqb v v' then fq_N q a * fq_N q a' else 0)
                          + w * (LS v' v a * fq_N q a') in
  Ok (f, j).
Definition velocity_residual (tau_of : fpt -> prim -> mx) (qps : list fpt) (x xd : evec) : outcome (evec * emat * emat) :=
  fj <- over (vel_step tau_of x xd) qps (ev0, em0) ;; Ok (fst fj, snd fj, em0).

(** * The sides *)
(** L974-1045 symmetry_surface_residual *)
Definition sym_step (x : evec) (q : fpt) (acc : evec * emat) : outcome (evec * emat) :=
  s <- prim_init d cp cv false (fe_U q x) ;;
  J <- wall_jac d (cp - cv) cv s 0 (fq_n q) (fun _ => 0) ;;
  let flux := fun v => if (Nat.ltb 0 v && Nat.leb v d)%bool then p_p s * fq_n q (v - 1)%nat else 0 in
  Ok (add_vec (fq_w q) (fq_N q) flux (fst acc), add_mat (fq_w q) (fq_N q) J (fq_N q) (snd acc)).
(** L1075-1205 slip_wall_surface_residual: velocity and change of the normal of the moving wall, absent
    functions leaving zeros.  A velocity without a normal rotation is an assertion (L1143). *)
Definition dot3 (a b : vec) : R := sum 3 (fun i => a i * b i).
Record slip := mkSlip { sl_vel : option (fpt -> vec); sl_rot : option (fpt -> vec) }.
Definition at_pt (o : option (fpt -> vec)) (q : fpt) : vec := match o with None => fun _ => 0 | Some h => h q end.
Definition pad (n : nat) (v : vec) : vec := fun i => if Nat.ltb i n then v i else 0.
Definition slip_step (b : slip) (x : evec) (q : fpt) (acc : evec * emat) : outcome (evec * emat) :=
  let U := fe_U q x in
  s <- prim_init d cp cv false U ;;
  let ni := pad d (fq_n q) in
  let wd := at_pt (sl_vel b) q in
  let dn := at_pt (sl_rot b) q in
  let uini := dot3 wd (fun i => ni i + dn i) - dot3 (uvec d s) dn in
  let flux := fun v => uini * U v + (if Nat.eqb v (d + 1) then uini * p_p s else 0)
                     + (if (Nat.ltb 0 v && Nat.leb v d)%bool then p_p s * ni (v - 1)%nat else 0) in
  J <- wall_jac d (cp - cv) cv s uini (fq_n q) dn ;;
  Ok (add_vec (fq_w q) (fq_N q) flux (fst acc), add_mat (fq_w q) (fq_N q) J (fq_N q) (snd acc)).
Definition slip_side (b : slip) (x : evec) (qps : list fpt) (acc : evec * emat) : outcome (evec * emat) :=
  match sl_vel b, sl_rot b with
  | Some _, None => Fault AssertFailed
  | _, _ => over (slip_step b x) qps acc
  end.
(** L1627-1755 far_field_surface_residual.  L^-T diag(lam) L^T with the columns of the other sign
    multiplied by zero. *)
Definition split_mat (keep : R -> bool) (e : vec * mx * mx) : mx :=
  let '(lam, L, LI) := e in
  fun i j => sum nun (fun k => LI i k * (if keep (lam k) then lam k else 0) * L j k).
Definition incoming (l : R) : bool := rltb l 0.
Definition outgoing (l : R) : bool := rltb 0 l.
(** [inf q] is the flow far away: flight_condition->inf_sol if given, else get_infinity_vars *)
Definition far_step (inf : fpt -> vec) (x : evec) (q : fpt) (acc : evec * emat) : outcome (evec * emat) :=
  let U := fe_U q x in
  s <- prim_init d cp cv false U ;;
  e <- eig d cv (cp / cv) s (fq_n q) ;;
  let Am := split_mat incoming e in
  let f1 := add_vec (fq_w q) (fq_N q) (mvec nun Am (inf q)) (fst acc) in
  let Ap := split_mat outgoing e in
  let f2 := add_vec (fq_w q) (fq_N q) (mvec nun Ap U) f1 in
  Ok (f2, add_mat (fq_w q) (fq_N q) Ap (fq_N q) (snd acc)).
(** The boundary conditions a side can carry. *)
Inductive fside := SymmetryWall | SlipWall (b : slip) | FarField (inf : fpt -> vec) | DirichletSide | OtherSide.
(** L483-545 side_external_residual over the pairs (points of a side, condition), in the order of the
    loops.  The no-slip wall (L1422-1605) is not modelled. *)
Definition side_step (x : evec) (sc : list fpt * fside) (acc : evec * emat) : outcome (evec * emat) :=
  match snd sc with
  | SymmetryWall => over (sym_step x) (fst sc) acc
  | SlipWall b => slip_side b x (fst sc) acc
  | FarField inf => over (far_step inf x) (fst sc) acc
  | DirichletSide => Ok acc
  | OtherSide => Fault LibError
  end.
Definition side_external_residual (sides : list (list fpt * fside)) (x : evec) (acc : evec * emat) : outcome (evec * emat) :=
  over (side_step x) sides acc.

(** L1760-1858 far_field_surface_residual_sensitivity: whatever the parameter, the derivative of the flow
    far away with respect to its density, written at the places it has in a plane flow. *)
Definition far_sens_step (fl : flight) (x : evec) (q : fpt) (f : evec) : outcome evec :=
  let U := fe_U q x in
  s <- prim_init d cp cv false U ;;
  e <- eig d cv (cp / cv) s (fq_n q) ;;
  let Am := split_mat incoming e in
  dinf <- vwrites nun [Z1 0 fl_rho_sens_rho; Z1 1 (fl_rho_u_sens_rho fl 0); Z1 2 (fl_rho_u_sens_rho fl 1); Z1 3 (fl_rho_e_sens_rho fl)] (fun _ => 0) ;;
  Ok (add_vec (fq_w q) (fq_N q) (mvec nun Am dinf) f).
(** L672-735 side_external_residual_sensitivity: the wall sensitivities return without an entry (L1059-1072,
    1409-1420, 1613-1624); the slip wall runs on into the no-slip wall, which adds nothing either. *)
Definition side_sens_step {P : Type} (p : P) (fl : flight) (x : evec) (sc : list fpt * fside) (f : evec) : outcome evec :=
  match snd sc with
  | SymmetryWall => Ok f
  | SlipWall _ => Ok f
  | FarField _ => over (far_sens_step fl x) (fst sc) f
  | DirichletSide => Ok f
  | OtherSide => Fault LibError
  end.
Definition side_external_residual_sensitivity {P : Type} (p : P) (fl : flight) (sides : list (list fpt * fside)) (x : evec) (f : evec) : outcome evec :=
  over (side_sens_step p fl x) sides f.

(** * The force on a boundary *)
(** L772-868 side_integrated_force, inviscid part: f(i) += JxW p n_i, dfdX row i += JxW B^T dpdX n_i *)
Definition force_step (x : evec) (q : fpt) (acc : vec * (nat -> evec)) : outcome (vec * (nat -> evec)) :=
  s <- prim_init d cp cv false (fe_U q x) ;;
  g <- dpdX d (cp - cv) cv s ;;
  Ok ((fun i => if Nat.ltb i d then fst acc i + fq_w q * p_p s * fq_n q i else fst acc i),
      (fun i v a => if Nat.ltb i d then snd acc i v a + fq_w q * (fq_N q a * g v) * fq_n q i else snd acc i v a)).
Definition side_integrated_force (x : evec) (qps : list fpt) (acc : vec * (nat -> evec)) : outcome (vec * (nat -> evec)) :=
  over (force_step x) qps acc.
(** L880-968 side_integrated_force_sensitivity, inviscid part *)
Definition force_sens_step (x xs : evec) (q : fpt) (df : vec) : outcome vec :=
  s <- prim_init d cp cv false (fe_U q x) ;;
  let ds := pert_of d cp cv false s (fe_U q xs) in
  Ok (fun i => if Nat.ltb i d then df i + fq_w q * d_p ds * fq_n q i else df i).
Definition side_integrated_force_sensitivity (x xs : evec) (qps : list fpt) (df : vec) : outcome vec :=
  over (force_sens_step x xs) qps df.
(** integrated_force_output.cpp L37-44: the direction is divided by its length *)
Definition direction (nv : vec) : outcome vec :=
  if reqb (sqrt (dot3 nv nv)) 0 then Fault DivByZero else Ok (fun i => nv i / sqrt (dot3 nv nv)).
(** L113-135 evaluate: [sides] holds the points of every side and whether it is on a boundary of the
    output (if_evaluate_for_boundary).  The vector f is set to zero before the loop only. *)
Definition force_evaluate (n : vec) (x : evec) (sides : list (list fpt * bool)) (force : R) : outcome R :=
  r <- over (fun (sd : list fpt * bool) (acc : (vec * (nat -> evec)) * R) =>
         if snd sd then f <- side_integrated_force x (fst sd) (fst acc) ;; Ok (f, snd acc + dot3 (fst f) n) else Ok acc)
       sides (((fun _ => 0), (fun _ => ev0)), force) ;;
  Ok (snd r).
(** L139-160 evaluate_sensitivity *)
Definition force_evaluate_sens (n : vec) (x xs : evec) (sides : list (list fpt * bool)) (force : R) : outcome R :=
  r <- over (fun (sd : list fpt * bool) (acc : vec * R) =>
         if snd sd then f <- side_integrated_force_sensitivity x xs (fst sd) (fst acc) ;; Ok (f, snd acc + dot3 f n) else Ok acc)
       sides ((fun _ => 0), force) ;;
  Ok (snd r).
(** L164-190 output_derivative_for_elem *)
Definition force_derivative (n : vec) (x : evec) (sides : list (list fpt * bool)) (dq : evec) : outcome evec :=
  r <- over (fun (sd : list fpt * bool) (acc : (vec * (nat -> evec)) * evec) =>
         if snd sd then f <- side_integrated_force x (fst sd) (fst acc) ;;
                        Ok (f, fun v a => snd acc v a + sum 3 (fun i => n i * snd f i v a)) else Ok acc)
       sides (((fun _ => 0), (fun _ => ev0)), dq) ;;
  Ok (snd r).
End Cfe.
