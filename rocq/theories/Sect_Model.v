(** Model of the section cards of bars and plates: /repo/src/property_cards/solid_1d_section_element_property_card.cpp,
    solid_2d_section_element_property_card.cpp, multilayer_1d_section_element_property_card.cpp,
    multilayer_2d_section_element_property_card.cpp, element_property_card_1D.cpp and element_property_card_2D.cpp.
    The values of the section's scalar properties and the matrices of the material at the point of evaluation are
    arguments, and so are their derivatives with respect to the parameter.  Left out: the prestress functions, the
    von Karman flag and the caching of the functions. *)
From Coq Require Import List Arith Bool Reals.
From Verif Require Import Base RBool Mat_Model Coor_Model.
Import ListNotations.
Open Scope R_scope.

(** Names of the section properties: "hy", "hz", "hy_offset", "hz_offset", "Kappazz", "Kappayy", the material's "rho";
    "h", "off", "kappa" of a plate. *)
Inductive sname := hy_ | hz_ | oy_ | oz_ | kz_ | ky_ | den_ | h_ | off_ | kap_.
Definition sec := sname -> R.

(** ** Bars *)
(** solid_1d_section_element_property_card.cpp L44-52 Area, L54-62 its derivative *)
Definition area (s : sec) : R := s hy_ * s hz_.
Definition area_d (s d : sec) : R := d hy_ * s hz_ + s hy_ * d hz_.
(** L86-106 TorsionalConstant *)
Definition tors_formula (a b : R) : R := a * b ^ 3 * (1 / 3 - 21 / 100 * b / a * (1 - (b / a) ^ 4 / 12)).
Definition tors (s : sec) : outcome R :=
  let (a, b) := if rltb (s hz_) (s hy_) then (s hy_, s hz_) else (s hz_, s hy_) in
  guard [a] (Ok (tors_formula a b)).
(** L108-135 its derivative *)
Definition tors_d (s d : sec) : outcome R :=
  let '(a, da, b, db) := if rltb (s hz_) (s hy_) then (s hy_, d hy_, s hz_, d hz_) else (s hz_, d hz_, s hy_, d hy_) in
  guard [a] (Ok
   (da * b ^ 3 * (1 / 3 - 21 / 100 * b / a * (1 - (b / a) ^ 4 / 12)) +
    a * 3 * b ^ 2 * db * (1 / 3 - 21 / 100 * b / a * (1 - (b / a) ^ 4 / 12)) +
    a * b ^ 3 * (- (21 / 100) * db / a * (1 - (b / a) ^ 4 / 12) +
                 21 / 100 * b / a ^ 2 * da * (1 - (b / a) ^ 4 / 12) +
                 - (21 / 100) * b / a * (- 4 * b ^ 3 * db / a ^ 4 / 12 + 4 * b ^ 4 / a ^ 5 * da / 12)))).
(** L161-172 PolarInertia, L174-190 *)
Definition polar_in (s : sec) : R := s hy_ * s hz_ * ((s hy_ ^ 2 + s hz_ ^ 2) / 12 + s oy_ ^ 2 + s oz_ ^ 2).
Definition polar_in_d (s d : sec) : R :=
  (d hy_ * s hz_ + s hy_ * d hz_) * ((s hy_ ^ 2 + s hz_ ^ 2) / 12 + s oy_ ^ 2 + s oz_ ^ 2) +
  2 * s hy_ * s hz_ * ((s hy_ * d hy_ + s hz_ * d hz_) / 12 + s oy_ * d oy_ + s oz_ * d oz_).
(** L220-230 AreaYMoment, L232-242 *)
Definition ymom (s : sec) : R := s hy_ * s hz_ * s oz_.
Definition ymom_d (s d : sec) : R := d hy_ * s hz_ * s oz_ + s hy_ * d hz_ * s oz_ + s hy_ * s hz_ * d oz_.
(** L271-281 AreaZMoment, L283-293 *)
Definition zmom (s : sec) : R := s hy_ * s hz_ * s oy_.
Definition zmom_d (s d : sec) : R := d hy_ * s hz_ * s oy_ + s hy_ * d hz_ * s oy_ + s hy_ * s hz_ * d oy_.
(** L330-345 AreaInertiaMatrix; m(1,0) = m(0,1) reads the value just written. *)
Definition inert (s : sec) : outcome (mat R) :=
  mk 2 2 [W 0 0 (s hz_ * s hy_ ^ 3 / 12 + s hy_ * s hz_ * s oy_ ^ 2); W 0 1 (s hy_ * s hz_ * s oy_ * s oz_);
          W 1 0 (s hy_ * s hz_ * s oy_ * s oz_); W 1 1 (s hy_ * s hz_ ^ 3 / 12 + s hy_ * s hz_ * s oz_ ^ 2)].
(** L347-367 its derivative *)
Definition inert_d (s d : sec) : outcome (mat R) :=
  mk 2 2 [W 0 0 (d hz_ * s hy_ ^ 3 / 12 + s hz_ * s hy_ ^ 2 / 4 * d hy_ + d hy_ * s hz_ * s oy_ ^ 2 + s hy_ * d hz_ * s oy_ ^ 2 + 2 * s hy_ * s hz_ * s oy_ * d oy_);
          W 0 1 (d hy_ * s hz_ * s oy_ * s oz_ + s hy_ * d hz_ * s oy_ * s oz_ + s hy_ * s hz_ * d oy_ * s oz_ + s hy_ * s hz_ * s oy_ * d oz_);
          W 1 0 (d hy_ * s hz_ * s oy_ * s oz_ + s hy_ * d hz_ * s oy_ * s oz_ + s hy_ * s hz_ * d oy_ * s oz_ + s hy_ * s hz_ * s oy_ * d oz_);
          W 1 1 (d hy_ * s hz_ ^ 3 / 12 + s hy_ * s hz_ ^ 2 / 4 * d hz_ + d hy_ * s hz_ * s oz_ ^ 2 + s hy_ * d hz_ * s oz_ ^ 2 + 2 * s hy_ * s hz_ * s oz_ * d oz_)].
(** L417-427 ShearCoefficientMatrix, L429-438 *)
Definition shear_co (s : sec) : outcome (mat R) := mk 2 2 [W 0 0 (s kz_); W 1 1 (s ky_)].
Definition shear_co_d (d : sec) : outcome (mat R) := mk 2 2 [W 0 0 (d kz_); W 1 1 (d ky_)].

(** m.row(r) *= c, with Eigen's index check *)
Definition row_scl (r : nat) (c : R) (m : mat R) : outcome (mat R) :=
  assert_ (Nat.ltb r (rows m)) (Ok (mkMat (rows m) (cols m) (fun i j => if Nat.eqb i r then ent m i j * c else ent m i j))).
(** L824-837 ExtensionStiffnessMatrix *)
Definition ext1 (C : mat R) (s : sec) : outcome (mat R) :=
  J <- tors s ;; m <- row_scl 0 (area s) C ;; row_scl 1 J m.
(** L841-867 its derivative *)
Definition ext1_d (C dC : mat R) (s d : sec) : outcome (mat R) :=
  J <- tors s ;; dJ <- tors_d s d ;;
  m <- row_scl 0 (area_d s d) C ;; m <- row_scl 1 dJ m ;;
  dm <- row_scl 0 (area s) dC ;; dm <- row_scl 1 J dm ;; madd m dm.
(** L884-900 ExtensionBendingStiffnessMatrix: m(0,1) = m(0,0)*Ay; m(0,0) *= Az; m.row(1) *= 0 *)
Definition couple (Ay Az : R) (m : mat R) : outcome (mat R) :=
  x <- mget m 0 0 ;; m <- mset m 0 1 (x * Ay) ;; m <- mset m 0 0 (x * Az) ;; row_scl 1 0 m.
Definition extbend1 (C : mat R) (s : sec) : outcome (mat R) := couple (ymom s) (zmom s) C.
(** L904-926 its derivative *)
Definition extbend1_d (C dC : mat R) (s d : sec) : outcome (mat R) :=
  m <- couple (ymom_d s d) (zmom_d s d) C ;; dm <- couple (ymom s) (zmom s) dC ;; madd m dm.
(** L941-955 BendingStiffnessMatrix *)
Definition bend1 (C : mat R) (s : sec) : outcome (mat R) :=
  m <- inert s ;; e <- mget C 0 0 ;; Ok (mscl e m).
(** L961-978 its derivative *)
Definition bend1_d (C dC : mat R) (s d : sec) : outcome (mat R) :=
  m <- inert s ;; dm <- inert_d s d ;; de <- mget dC 0 0 ;; e <- mget C 0 0 ;; madd (mscl de m) (mscl e dm).
(** L541-561 TransverseStiffnessMatrix *)
Definition scl_at (K : mat R) (i j : nat) (m : mat R) : outcome (mat R) :=
  x <- mget m i j ;; k <- mget K i j ;; mset m i j (x * k).
Definition trans1 (G : mat R) (s : sec) : outcome (mat R) :=
  K <- shear_co s ;; m <- scl_at K 0 0 (mscl (area s) G) ;; m <- scl_at K 1 1 m ;; m <- scl_at K 0 1 m ;; scl_at K 1 0 m.
(** L563-580 its derivative: the entries are assigned in the matrix [m0] of the caller, which is not resized. *)
Definition trans1_ent (G dG K dK : mat R) (A dA : R) (i j : nat) : outcome R :=
  g <- mget G i j ;; dg <- mget dG i j ;; k <- mget K i j ;; dk <- mget dK i j ;;
  Ok (dg * k * A + g * dk * A + g * k * dA).
Definition trans1_d (m0 G dG : mat R) (s d : sec) : outcome (mat R) :=
  K <- shear_co s ;; dK <- shear_co_d d ;;
  x <- trans1_ent G dG K dK (area s) (area_d s d) 0 0 ;; m <- mset m0 0 0 x ;;
  x <- trans1_ent G dG K dK (area s) (area_d s d) 1 1 ;; m <- mset m 1 1 x ;;
  x <- trans1_ent G dG K dK (area s) (area_d s d) 0 1 ;; m <- mset m 0 1 x ;;
  x <- trans1_ent G dG K dK (area s) (area_d s d) 1 0 ;; mset m 1 0 x.
(** L1007-1044 InertiaMatrix, before the multiplication by the density *)
Definition inertia1_geo (A Ay Az Ip i00 i01 i11 : R) : outcome (mat R) :=
  mk 6 6 [W 0 0 A; W 1 1 A; W 2 2 A; W 3 3 Ip; W 0 4 Ay; W 4 0 Ay; W 4 4 i11; W 0 5 Az; W 5 0 Az; W 5 5 i00; W 5 4 i01; W 4 5 i01].
Definition inertia1 (s : sec) : outcome (mat R) :=
  I <- inert s ;; i00 <- mget I 0 0 ;; i01 <- mget I 0 1 ;; i11 <- mget I 1 1 ;;
  m <- inertia1_geo (area s) (ymom s) (zmom s) (polar_in s) i00 i01 i11 ;; Ok (mscl (s den_) m).
(** L1049-1098 its derivative *)
Definition inertia1_d (s d : sec) : outcome (mat R) :=
  I <- inert s ;; i00 <- mget I 0 0 ;; i01 <- mget I 0 1 ;; i11 <- mget I 1 1 ;;
  dI <- inert_d s d ;; d00 <- mget dI 0 0 ;; d01 <- mget dI 0 1 ;; d11 <- mget dI 1 1 ;;
  m <- inertia1_geo (area s) (ymom s) (zmom s) (polar_in s) i00 i01 i11 ;;
  dm <- inertia1_geo (area_d s d) (ymom_d s d) (zmom_d s d) (polar_in_d s d) d00 d01 d11 ;;
  madd (mscl (d den_) m) (mscl (s den_) dm).
(** L1113-1126 ThermalExpansionAMatrix *)
Definition thermA1 (C a : mat R) (s : sec) : outcome (mat R) := m <- mul C a ;; Ok (mscl (area s) m).
(** L1132-1154 its derivative *)
Definition thermA1_d (C dC a da : mat R) (s d : sec) : outcome (mat R) :=
  m <- mul C a ;; m1 <- mul C da ;; m2 <- mul dC a ;; m1 <- madd m1 m2 ;; madd (mscl (area_d s d) m) (mscl (area s) m1).
(** L1178-1195 ThermalExpansionBMatrix: m(1,0) = Ay*m(0,0); m(0,0) *= Az *)
Definition moments (Ay Az : R) (m : mat R) : outcome (mat R) :=
  x <- mget m 0 0 ;; m <- mset m 1 0 (Ay * x) ;; mset m 0 0 (x * Az).
Definition thermB1 (C a : mat R) (s : sec) : outcome (mat R) := m <- mul C a ;; moments (ymom s) (zmom s) m.
(** L1200-1227 its derivative *)
Definition thermB1_d (C dC a da : mat R) (s d : sec) : outcome (mat R) :=
  m <- mul C a ;; m <- moments (ymom_d s d) (zmom_d s d) m ;;
  m1 <- mul C da ;; m2 <- mul dC a ;; m1 <- madd m1 m2 ;; m1 <- moments (ymom s) (zmom s) m1 ;; madd m m1.
(** L1392-1405 ThermalConductanceMatrix and L1445-1458 ThermalCapacitanceMatrix, L1409-1427 and L1462-1480 their derivatives *)
Definition times_area (M : mat R) (s : sec) : outcome (mat R) := Ok (mscl (area s) M).
Definition times_area_d (M dM : mat R) (s d : sec) : outcome (mat R) := madd (mscl (area_d s d) M) (mscl (area s) dM).

(** ** Plates *)
(** solid_2d_section_element_property_card.cpp L393-403 ExtensionStiffnessMatrix, L408-424; the conductance and
    capacitance matrices (L905-990) have the same form. *)
Definition ext2 (C : mat R) (s : sec) : outcome (mat R) := Ok (mscl (s h_) C).
Definition ext2_d (C dC : mat R) (s d : sec) : outcome (mat R) := madd (mscl (d h_) C) (mscl (s h_) dC).
(** L446-457 ExtensionBendingStiffnessMatrix, L462-477 *)
Definition extbend2 (C : mat R) (s : sec) : outcome (mat R) := Ok (mscl (s h_ * s off_) C).
Definition extbend2_d (C dC : mat R) (s d : sec) : outcome (mat R) :=
  madd (mscl (d h_ * s off_ + s h_ * d off_) C) (mscl (s h_ * s off_) dC).
(** L497-508 BendingStiffnessMatrix, L513-531 *)
Definition bend2 (C : mat R) (s : sec) : outcome (mat R) := Ok (mscl (s h_ ^ 3 / 12 + s h_ * s off_ ^ 2) C).
Definition bend2_d (C dC : mat R) (s d : sec) : outcome (mat R) :=
  madd (mscl (s h_ ^ 2 / 4 * d h_ + d h_ * s off_ ^ 2 + s h_ * 2 * s off_ * d off_) C) (mscl (s h_ ^ 3 / 12 + s h_ * s off_ ^ 2) dC).
(** L123-133 TransverseStiffnessMatrix, L135-149 *)
Definition trans2 (G : mat R) (s : sec) : outcome (mat R) := Ok (mscl (s kap_) (mscl (s h_) G)).
Definition trans2_d (G dG : mat R) (s d : sec) : outcome (mat R) :=
  madd (mscl (d h_ * s kap_ + s h_ * d kap_) G) (mscl (s kap_) (mscl (s h_) dG)).
(** L553-574 InertiaMatrix *)
Definition inertia2 (s : sec) : outcome (mat R) :=
  m <- mk 6 6 [W 0 0 (s h_); W 1 1 (s h_); W 2 2 (s h_); W 0 4 (s off_ * s h_); W 4 0 (s off_ * s h_);
     W 1 3 (- s off_ * s h_); W 3 1 (- s off_ * s h_); W 3 3 (s h_ ^ 3 / 12 + s h_ * s off_ ^ 2); W 4 4 (s h_ ^ 3 / 12 + s h_ * s off_ ^ 2);
     W 5 5 (s h_ ^ 3 / 12 * / 1000000)] ;;
  Ok (mscl (s den_) m).
(** L580-601 its derivative *)
Definition inertia2_d (s d : sec) : outcome (mat R) :=
  let t := d den_ * s h_ + s den_ * d h_ in
  let r := d den_ * s h_ ^ 3 / 12 + s den_ * s h_ ^ 2 / 4 * d h_ in
  mk 6 6 [W 0 0 t; W 1 1 t; W 2 2 t; W 0 4 (d off_ * s h_ + s off_ * d h_); W 4 0 (d off_ * s h_ + s off_ * d h_);
     W 1 3 (- d off_ * s h_ - s off_ * d h_); W 3 1 (- d off_ * s h_ - s off_ * d h_); W 3 3 r; W 4 4 r; W 5 5 (r * / 1000000)].
(** L622-635 ThermalExpansionAMatrix, L642-664 *)
Definition thermA2 (C a : mat R) (s : sec) : outcome (mat R) := m <- mul C a ;; Ok (mscl (s h_) m).
Definition thermA2_d (C dC a da : mat R) (s d : sec) : outcome (mat R) :=
  m <- mul C a ;; m1 <- mul C da ;; m2 <- mul dC a ;; m1 <- madd m1 m2 ;; madd (mscl (d h_) m) (mscl (s h_) m1).
(** L688-702 ThermalExpansionBMatrix, L708-731 *)
Definition thermB2 (C a : mat R) (s : sec) : outcome (mat R) := m <- mul C a ;; Ok (mscl (s h_ * s off_) m).
Definition thermB2_d (C dC a da : mat R) (s d : sec) : outcome (mat R) :=
  m <- mul C a ;; m1 <- mul C da ;; m2 <- mul dC a ;; m1 <- madd m1 m2 ;;
  madd (mscl (d h_ * s off_ + s h_ * d off_) m) (mscl (s h_ * s off_) m1).

(** ** Layered sections *)
(** multilayer_2d_section_element_property_card.cpp L49-67 LayerOffset::operator() (1D: L48-67, with the layers' hz);
    the derivative L70-90 is the same function of the derivatives of the thicknesses. *)
Fixpoint sum_first (n : nat) (hs : list R) : outcome R :=
  match n, hs with
  | O, _ => Ok 0
  | S _, [] => Fault OutOfBounds
  | S k, h :: r => x <- sum_first k r ;; Ok (h + x)
  end.
Definition nth_h (i : nat) (hs : list R) : outcome R := match nth_error hs i with Some h => Ok h | None => Fault OutOfBounds end.
Definition layer_offset (base : R) (i : nat) (hs : list R) : outcome R :=
  below <- sum_first i hs ;; h <- nth_h i hs ;;
  Ok (fold_left (fun m v => m - 1 / 2 * (1 + base) * v) hs (below + 1 / 2 * h)).
(** L113-126 Matrix::operator(): without layers the caller's matrix [m0] is returned as it is.  L129-145 derivative *)
Fixpoint add_all (m : mat R) (l : list (mat R)) : outcome (mat R) :=
  match l with [] => Ok m | x :: r => m <- madd m x ;; add_all m r end.
Definition layer_sum (m0 : mat R) (l : list (mat R)) : outcome (mat R) :=
  match l with [] => Ok m0 | x :: _ => add_all (mfill (rows x) (cols x) 0) l end.
Definition layer_sum_d (l : list (mat R)) : outcome (mat R) := layer_sum (mfill 2 2 0) l.
(** The section a layer sees: its own properties with the offset added by set_layers (L185-212); stiffness_A_matrix etc.
    (L252-300): one matrix of each layer, then their sum.  [f] is the layer's function, given its number. *)
Fixpoint each {A} (n : nat) (f : nat -> outcome A) : outcome (list A) :=
  match n with O => Ok [] | S k => l <- each k f ;; x <- f k ;; Ok (l ++ [x]) end.
Definition with_off (s : sec) (o : R) : sec := fun x => match x with off_ => o | _ => s x end.
Definition with_oz (s : sec) (o : R) : sec := fun x => match x with oz_ => o | _ => s x end.
Definition layered2 (f : nat -> sec -> outcome (mat R)) (base : R) (l : list sec) (m0 : mat R) : outcome (mat R) :=
  ms <- each (length l) (fun i =>
    o <- layer_offset base i (map (fun s => s h_) l) ;;
    match nth_error l i with Some s => f i (with_off s o) | None => Fault OutOfBounds end) ;;
  layer_sum m0 ms.
Definition layered1 (f : nat -> sec -> outcome (mat R)) (base : R) (l : list sec) (m0 : mat R) : outcome (mat R) :=
  ms <- each (length l) (fun i =>
    o <- layer_offset base i (map (fun s => s hz_) l) ;;
    match nth_error l i with Some s => f i (with_oz s o) | None => Fault OutOfBounds end) ;;
  layer_sum m0 ms.
(** The destructor L168-172 deletes the offset of every layer, and every offset's destructor L43-47 deletes the thickness
    function of every layer.  [h] are the thickness functions handed to the layers; the offsets are fresh. *)
Inductive obj := OThick (i : nat) | OOffset (i : nat).
Definition destroyed (h : list nat) : list obj :=
  flat_map (fun i => map OThick h ++ [OOffset i]) (seq 0 (length h)).

(** ** Bending models *)
Inductive bending := BERNOULLI | TIMOSHENKO | DKT | MINDLIN | DEFAULT_BENDING | NO_BENDING.
Definition is_default (b : bending) : bool := match b with DEFAULT_BENDING => true | _ => false end.
(** element_property_card_1D.cpp L24-55; [two_node]: EDGE2, [first]: first order Lagrange *)
Definition bending_1d (set : bending) (two_node first : bool) : outcome bending :=
  match set with
  | DKT | MINDLIN => Fault LibError
  | _ =>
    if two_node then Ok (if (first && is_default set)%bool then BERNOULLI else set)
    else Ok (if is_default set then TIMOSHENKO else set)
  end.
(** element_property_card_2D.cpp L24-50; [tri3]: TRI3 *)
Definition bending_2d (set : bending) (tri3 first : bool) : bending :=
  if tri3 then (if (first && is_default set)%bool then DKT else MINDLIN)
  else (if is_default set then MINDLIN else set).
