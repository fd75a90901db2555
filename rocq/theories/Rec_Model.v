(** Stress recovery of beams and plates: calculate_stress of elasticity/structural_element_1d.cpp and
    structural_element_2d.cpp, calculate_stress_boundary_velocity and calculate_stress_temperature_derivative of the
    second.  Strains and stresses are computed at points on the surface of the section and entered in the data of the
    element (elasticity/stress_output_base.cpp).  The local strain operators are those of Beam_Model and Plate_Model.
    Simplified: the data of one element only; the location of the points is not kept; the element is in the subset of
    the output, so that the assertion on the subset holds. *)
From Coq Require Import List Arith Bool Reals.
From Verif Require Import Base Solid_Model Dof6_Model Beam_Model Plate_Model.
Import ListNotations.
Open Scope R_scope.

(** stress_output_base.cpp L30-135, MAST::StressStrainOutputBase::Data: stress, strain, JxW, derivatives with respect to the
    solution (rows of six components, columns unknowns), sensitivities by parameter *)
Record pdata : Type := mkD { d_stress : nat -> R; d_strain : nat -> R; d_w : R;
  d_dX : option ((nat -> dofs) * (nat -> dofs)); d_sens : list (nat * ((nat -> R) * (nat -> R))) }.
Definition set_derivatives (s e : nat -> dofs) (d : pdata) : pdata := mkD (d_stress d) (d_strain d) (d_w d) (Some (s, e)) (d_sens d).
Fixpoint put {A : Type} (f : nat) (v : A) (l : list (nat * A)) : list (nat * A) := match l with
  | [] => [(f, v)] | (g, w) :: l => if Nat.eqb f g then (f, v) :: l else (g, w) :: put f v l end.
Definition set_sensitivity (f : nat) (s e : nat -> R) (d : pdata) : pdata :=
  mkD (d_stress d) (d_strain d) (d_w d) (d_dX d) (put f (s, e) (d_sens d)).
(** L613-653 add_stress_strain_at_qp_location, L660-702 the same for boundary points; [] is an element without data *)
Definition add_data (qp : nat) (s e : nat -> R) (w : R) (st : list pdata) : outcome (list pdata) :=
  match st with [] => Ok [mkD s e w None []]
  | _ => if Nat.eqb qp (length st) then Ok (st ++ [mkD s e w None []]) else Fault AssertFailed end.
(** L796-812 get_stress_strain_data_for_elem_at_qp, followed by a change [f] of that data *)
Fixpoint change (qp : nat) (f : pdata -> pdata) (st : list pdata) : outcome (list pdata) :=
  match st, qp with
  | [], _ => Fault AssertFailed
  | d :: st, O => Ok (f d :: st)
  | d :: st, S k => st <- change k f st ;; Ok (d :: st)
  end.

(** the loops over quadrature points and points of the section: [body] gets the number qp of the point, the quadrature
    point, the point of the section *)
Fixpoint section_loop (body : nat -> nat -> list pdata -> outcome (list pdata)) (qp k : nat) (todo : nat) (st : list pdata) : outcome (list pdata) :=
  match todo with O => Ok st | S m => st <- body (qp + k)%nat k st ;; section_loop body qp (S k) m st end.
Fixpoint point_loop (added : nat) (body : nat -> qpt -> nat -> list pdata -> outcome (list pdata)) (i : nat) (qs : list qpt) (st : list pdata) : outcome (list pdata) :=
  match qs with [] => Ok st
  | q :: qs => st <- section_loop (fun qp k => body qp q k) (i * added)%nat 0 added st ;; point_loop added body (S i) qs st end.

Definition eye (i j : nat) : R := if Nat.eqb i j then 1 else 0.
Definition rplus (M N : rmat) : rmat := fun r c a => M r c a + N r c a.
(** temperature, reference temperature and expansion coefficient of the thermal load of the element *)
Record heat : Type := mkH { h_T : qpt -> R; h_ref : qpt -> R; h_alpha : qpt -> R }.
Definition expansion (h : heat) (q : qpt) : R := h_alpha h q * (h_T h q - h_ref h q).
(** alpha * (dT - dTref) + dalpha * (T - Tref) *)
Definition dexpansion (h h' : heat) (q : qpt) : R := h_alpha h q * (h_T h' q - h_ref h' q) + h_alpha h' q * (h_T h q - h_ref h q).
(** material matrix, thermal load if there is one, dimensions of the section *)
Record bdat : Type := mkBd { b_C : qpt -> nat -> nat -> R; b_heat : option heat;
  b_hy : qpt -> R; b_hz : qpt -> R; b_hy_off : qpt -> R; b_hz_off : qpt -> R }.
Record pdat : Type := mkPd { p_C : qpt -> nat -> nat -> R; p_heat : option heat; p_h : qpt -> R; p_off : qpt -> R }.

Section Beam.
Variable n : nat.                  (* n_phi *)
Variable vk : bool.                (* _property.strain_type() == NONLINEAR_STRAIN *)
Variable b : bending.              (* _property.bending_model(_elem) *)
Variable t : frame.                (* axes of the element *)

(** structural_element_1d.cpp L179-195: upper right, upper left, lower right, lower left *)
Definition corner (k : nat) : R * R := match k with
  | 0%nat => (1, 1) | 1%nat => (-1, 1) | 2%nat => (1, -1) | _ => (-1, -1) end.
Definition at_y (D : bdat) (q : qpt) (k : nat) : R := fst (corner k) * b_hy D q / 2 + b_hy_off D q.
Definition at_z (D : bdat) (q : qpt) (k : nat) : R := snd (corner k) * b_hz D q / 2 + b_hz_off D q.
Definition bend_strain (D : bdat) (q : qpt) (k : nat) (u : dofs) (e : nat -> R) : nat -> R :=
  let B := bend_yz b q (at_y D q k) (at_z D q k) in
  vplus (vplus e (vm n (fst B) u)) (vm n (snd B) u).
Definition minus0 (e : nat -> R) (x : R) (r : nat) : R := match r with O => e r - x | _ => e r end.
(** L322-374 *)
Definition beam_strain (D : bdat) (q : qpt) (k : nat) (u : dofs) : nat -> R :=
  let e := vm n (direct q) u in
  let e := match b_heat D with Some h => minus0 e (expansion h q) | None => e end in
  if bends b then bend_strain D q k u (if vk then vplus e (vk_strain n q u) else e) else e.
(** L408-433 *)
Definition at00 (x : R) (i j : nat) : R := match i, j with O, O => x | _, _ => 0 end.
Definition beam_dstrain (D : bdat) (q : qpt) (k : nat) (u : dofs) : rmat :=
  let M := lm 2 (direct q) eye in
  if bends b then
    let M := if vk then rplus (rplus M (lm 2 (vk_v q) (at00 (slope n q u 1)))) (lm 2 (vk_w q) (at00 (slope n q u 2))) else M in
    let B := bend_yz b q (at_y D q k) (at_z D q k) in
    rplus (rplus M (lm 2 (fst B) eye)) (lm 2 (snd B) eye)
  else M.
(** strain_3D, stress_3D and the rows of the derivatives: only the first is set *)
Definition first (x : R) (r : nat) : R := match r with O => x | _ => 0 end.
Definition first_row (x : dofs) (r : nat) : dofs := match r with O => x | _ => zf end.
(** L462-500: derivatives of the data at constant solution, then the product with _local_sol_sens *)
Definition beam_dp (D D' : bdat) (q : qpt) (k : nat) (u us : dofs) : (nat -> R) * (nat -> R) :=
  let e' := fun _ : nat => 0 in
  let e' := match b_heat D, b_heat D' with Some h, Some h' => minus0 e' (dexpansion h h' q) | _, _ => e' end in
  let e' := if bends b then bend_strain D' q k u e' else e' in
  let s' := vplus (mv 2 (b_C D q) e') (mv 2 (b_C D' q) (beam_strain D q k u)) in
  let M := beam_dstrain D q k u in
  (vplus s' (vm n (mm 2 (b_C D q) M) us), vplus e' (vm n M us)).

(** L160-540 calculate_stress(req, p): [p] is the number of the parameter with the derivatives of the data and the
    sensitivity of the solution; U is the solution in global axes *)
Definition beam_body (D : bdat) (U : dofs) (req : bool) (p : option (nat * bdat * dofs)) (qp : nat) (q : qpt) (k : nat)
  (st : list pdata) : outcome (list pdata) :=
  let u := to_local t U in
  let e := beam_strain D q k u in
  let s := mv 2 (b_C D q) e in
  match req, p with
  | false, None => add_data qp (first (s 0%nat)) (first (e 0%nat)) (jxw q) st
  | _, _ => change qp (fun d =>
      let M := beam_dstrain D q k u in
      let d := if req then set_derivatives (first_row (to_global t (mm 2 (b_C D q) M 0%nat))) (first_row (to_global t (M 0%nat))) d else d in
      match p with
      | Some (f, D', Us) => let '(s', e') := beam_dp D D' q k u (to_local t Us) in
          set_sensitivity f (first (s' 0%nat)) (first (e' 0%nat)) d
      | None => d end) st
  end.
Definition beam_stress (qs : list qpt) (D : bdat) (U : dofs) (req : bool) (p : option (nat * bdat * dofs)) (st : list pdata)
  : outcome (list pdata * bool) :=
  st <- point_loop 4 (beam_body D U req p) 0 qs st ;;
  if Nat.eqb (length qs * 4) (length st) then Ok (st, (req || match p with Some _ => true | None => false end)%bool) else Fault AssertFailed.
End Beam.

Section PlateElement.
Variable n : nat.                  (* n_phi *)
Variable nl : bool.                (* _property.strain_type() == NONLINEAR_STRAIN *)
Variable b : plate.                (* _property.bending_model(_elem) *)
Variable t : frame.                (* axes of the element *)

(** structural_element_2d.cpp L328-343: upper and lower skin *)
Definition skin (k : nat) : R := match k with O => 1 | _ => -1 end.
Definition skin_z (D : pdat) (q : qpt) (k : nat) : R := skin k * p_h D q / 2 + p_off D q.
Definition minus01 (e : nat -> R) (x : R) (r : nat) : R := match r with 0%nat | 1%nat => e r - x | _ => e r end.
(** L459-515 *)
Definition plate_strain (D : pdat) (q : qpt) (k : nat) (u : dofs) : nat -> R :=
  let e := gl_strain n nl q u in
  let e := match p_heat D with Some h => minus01 e (expansion h q) | None => e end in
  if pbends b then vplus (if nl then vplus e (vk_eps n q u) else e) (vm n (pbend_z b q (skin_z D q k)) u) else e.
(** L553-580 *)
Definition plate_dstrain (D : pdat) (q : qpt) (k : nat) (u : dofs) : rmat :=
  let M := lm 3 (b_lin q) eye in
  let M := if nl then rplus (rplus M (lm 2 (b_x nl q) (mat_x n nl q u))) (lm 2 (b_y nl q) (mat_y n nl q u)) else M in
  if pbends b then
    let M := if nl then rplus M (lm 2 (b_vk q) (vk_mat n q u)) else M in
    rplus M (lm 3 (pbend_z b q (skin_z D q k)) eye)
  else M.
(** components 0, 1, 3 of a vector of six *)
Definition plane6 (v : nat -> R) (r : nat) : R := match r with 0%nat => v 0%nat | 1%nat => v 1%nat | 3%nat => v 2%nat | _ => 0 end.
Definition plane_rows (v : nat -> dofs) (r : nat) : dofs := match r with 0%nat => v 0%nat | 1%nat => v 1%nat | 3%nat => v 2%nat | _ => zf end.
(** L617-690 *)
Definition plate_dp (D D' : pdat) (q : qpt) (k : nat) (u us : dofs) : (nat -> R) * (nat -> R) :=
  let e' := fun _ : nat => 0 in
  let e' := match p_heat D, p_heat D' with Some h, Some h' => minus01 e' (dexpansion h h' q) | _, _ => e' end in
  let e' := if pbends b then vplus e' (vm n (pbend_z b q (skin_z D' q k)) u) else e' in
  let s' := vplus (mv 3 (p_C D q) e') (mv 3 (p_C D' q) (plate_strain D q k u)) in
  let M := plate_dstrain D q k u in
  (vplus s' (vm n (mm 3 (p_C D q) M) us), vplus e' (vm n M us)).

(** L306-712 calculate_stress: JxW is halved *)
Definition plate_body (D : pdat) (U : dofs) (req : bool) (p : option (nat * pdat * dofs)) (qp : nat) (q : qpt) (k : nat)
  (st : list pdata) : outcome (list pdata) :=
  let u := to_local t U in
  let e := plate_strain D q k u in
  let s := mv 3 (p_C D q) e in
  match req, p with
  | false, None => add_data qp (plane6 s) (plane6 e) (jxw q / (1 * 2)) st
  | _, _ => change qp (fun d =>
      let M := plate_dstrain D q k u in
      let G := fun (M : rmat) (r : nat) => to_global t (M r) in
      let d := if req then set_derivatives (plane_rows (G (mm 3 (p_C D q) M))) (plane_rows (G M)) d else d in
      match p with
      | Some (f, D', Us) => let '(s', e') := plate_dp D D' q k u (to_local t Us) in
          set_sensitivity f (plane6 s') (plane6 e') d
      | None => d end) st
  end.
Definition plate_stress (qs : list qpt) (D : pdat) (U : dofs) (req : bool) (p : option (nat * pdat * dofs)) (st : list pdata)
  : outcome (list pdata * bool) :=
  st <- point_loop 2 (plate_body D U req p) 0 qs st ;;
  if Nat.eqb (length qs * 2) (length st) then Ok (st, (req || match p with Some _ => true | None => false end)%bool) else Fault AssertFailed.

(** L714-943 calculate_stress_boundary_velocity: [qs] are the points of the side, vel and nv velocity and normal in the
    coordinates of the element; [st] is the boundary data of the element *)
Definition side_vn (vel nv : qpt -> nat -> R) (q : qpt) : R := sum 2 (fun i => vel q i * nv q i).
Definition side_body (D : pdat) (U : dofs) (vel nv : qpt -> nat -> R) (qp : nat) (q : qpt) (k : nat) (st : list pdata) : outcome (list pdata) :=
  let u := to_local t U in
  let e := plate_strain D q k u in
  add_data qp (plane6 (mv 3 (p_C D q) e)) (plane6 e) (jxw q * (side_vn vel nv q / (1 * 2))) st.
Definition side_stress (qs : list qpt) (D : pdat) (U : dofs) (vel nv : qpt -> nat -> R) (st : list pdata) : outcome (list pdata) :=
  st <- point_loop 2 (side_body D U vel nv) 0 qs st ;;
  if Nat.eqb (length qs * 2) (length st) then Ok st else Fault AssertFailed.

(** L947-1060 calculate_stress_temperature_derivative: the unknowns are the temperatures at the nodes, kept as the
    variable 0; [same] is the comparison of types and numbers of points of the two finite elements *)
Definition heat_body (D : pdat) (alpha : qpt -> R) (qp : nat) (q : qpt) (k : nat) (st : list pdata) : outcome (list pdata) :=
  let row := fun r => sum 3 (fun i => alpha q * p_C D q r i * (match i with 0%nat | 1%nat => 1 | _ => 0 end)) in
  change qp (set_derivatives (plane_rows (fun r c a => match c with O => - (row r * phi q a) | _ => 0 end)) (fun _ => zf)) st.
Definition heat_derivative (same : bool) (qs : list qpt) (D : pdat) (st : list pdata) : outcome (list pdata) :=
  if same then match p_heat D with
    | Some h => point_loop 2 (heat_body D (h_alpha h)) 0 qs st
    | None => Fault AssertFailed end
  else Fault AssertFailed.
End PlateElement.
