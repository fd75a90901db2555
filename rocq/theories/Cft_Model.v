(** Model of the element operations for flows in time, /repo/src/fluid/conservative_fluid_transient_assembly.cpp, and of the linearised
    residuals of the flow element they use, conservative_fluid_element_base.cpp L296-325, L446-480, L555-665, L1219-1400.
    Element, sides and stabilisation are those of Cfe_Model; inviscid flows. *)
From Coq Require Import List Arith Bool Reals.
From Verif Require Import Base RBool Flui_Model Cfe_Model Fdf_Model.
Import ListNotations.
Open Scope R_scope.

Definition ev_plus (f g : evec) : evec := fun v a => f v a + g v a.
(** perturbations of the functions "velocity" and "normal_rotation" of a wall; read only if the function is there *)
Record motion : Type := mkMo { mo_vel : fpt -> vec; mo_rot : fpt -> vec }.
Definition moved_by (o : option (fpt -> vec)) (h : fpt -> vec) (q : fpt) : vec := match o with None => fun _ => 0 | Some _ => h q end.

Section Cft.
Variables (d : nat) (cp cv : R) (nphi : nat).
(** L1219-1385 linearized_slip_wall_surface_residual at one point, without a matrix *)
Definition lin_slip_step (b : slip) (mo : motion) (x dx : evec) (q : fpt) (f : evec) : outcome evec :=
  let U := fe_U nphi q x in
  let DU := fe_U nphi q dx in
  s <- prim_init d cp cv false U ;;
  let ds := pert_of d cp cv false s DU in
  let ni := pad d (fq_n q) in
  let wd := at_pt (sl_vel b) q in
  let dn := at_pt (sl_rot b) q in
  let Dw := moved_by (sl_vel b) (mo_vel mo) q in
  let Dn := moved_by (sl_rot b) (mo_rot mo) q in
  let un := dot3 wd (fun i => ni i + dn i) - dot3 (uvec d s) dn in
  let Dun := dot3 Dw (fun i => ni i + dn i) + dot3 wd Dn - dot3 (uvec d s) Dn - dot3 (duvec d ds) dn in
  let flux := fun v => un * DU v + (if Nat.eqb v (d + 1) then un * d_p ds else 0)
                     + Dun * U v + (if Nat.eqb v (d + 1) then Dun * p_p s else 0)
                     + (if (Nat.ltb 0 v && Nat.leb v d)%bool then d_p ds * ni (v - 1)%nat else 0) in
  Ok (add_vec (fq_w q) (fq_N q) flux f).
Definition lin_slip_side (b : slip) (mo : motion) (x dx : evec) (qps : list fpt) (f : evec) : outcome evec :=
  match sl_vel b, sl_rot b with
  | Some _, None => Fault AssertFailed
  | _, _ => over (lin_slip_step b mo x dx) qps f
  end.
(** L555-665 linearized_side_external_residual: sides that do not move enter with their matrix, from zero *)
Definition lin_side_step (x dx : evec) (sc : list fpt * fside * motion) (f : evec) : outcome evec :=
  let '(qps, c, mo) := sc in
  match c with
  | SymmetryWall => fj <- over (sym_step d cp cv nphi x) qps (ev0, em0) ;; Ok (ev_plus f (emul d nphi (snd fj) dx))
  | SlipWall b => lin_slip_side b mo x dx qps f
  | FarField inf => fj <- over (far_step d cp cv nphi inf x) qps (ev0, em0) ;; Ok (ev_plus f (emul d nphi (snd fj) dx))
  | DirichletSide => Ok f
  | OtherSide => Fault LibError
  end.
Definition lin_sides (sides : list (list fpt * fside * motion)) (x dx : evec) (f : evec) : outcome evec :=
  over (lin_side_step x dx) sides f.

Section Step.
Variables (tau_of : fpt -> prim -> mx) (shock : option (fpt -> evec -> vec)) (qps : list fpt) (sides : list (list fpt * fside * motion)).
(** elem_calculations, assembly.cpp L46-74: f_m, f_x, f_m_jac_xdot, f_m_jac, f_x_jac *)
Definition fluid_calc (asked : bool) (x xd : evec) : outcome (evec * evec * emat * emat * emat) :=
  i <- internal_residual d cp cv nphi tau_of shock qps x ;;
  s <- side_external_residual d cp cv nphi (map fst sides) x i ;;
  m <- velocity_residual d cp cv nphi tau_of qps x xd ;;
  let '(fm, md, mx) := m in
  Ok (fm, fst s, if asked then md else em0, if asked then mx else em0, if asked then snd s else em0).
(** linearized_jacobian_solution_product, L78-102 *)
Definition fluid_product (x xd dx dxd : evec) : outcome evec :=
  i <- linearized_internal d cp cv nphi tau_of shock qps x dx ;;
  s <- lin_sides sides x dx (ev_plus ev0 (fst i)) ;;
  m <- velocity_residual d cp cv nphi tau_of qps x xd ;;
  let '(_, md, mj) := m in
  Ok (ev_plus s (ev_plus (emul d nphi mj dx) (emul d nphi md dxd))).
(** elem_sensitivity_calculations, L107-136: the sensitivities of the interior and of the rate add nothing, element_base.cpp L743-765 *)
Definition fluid_sens {P : Type} (p : P) (fl : flight) (x : evec) : outcome (evec * evec) :=
  fx <- side_external_residual_sensitivity d cp cv nphi p fl (map fst sides) x ev0 ;; Ok (ev0, fx).
End Step.
End Cft.
