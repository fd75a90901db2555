(** Model of the orientation of materials: /repo/src/coordinates/coordinate_base.cpp, polar_coordinate.cpp,
    basis_matrix_coordinate.cpp and /repo/src/property_cards/orthotropic_element_property_card_3D.cpp.
    The material's matrices and the orientation matrix at the point of evaluation are arguments, and so are their
    derivatives with respect to the parameter.  Eigen's size checks of products and sums are kept; a product is
    evaluated into a temporary, so m = T * m * U reads the old m. *)
From Coq Require Import List Arith Bool Reals.
From Verif Require Import Base Mat_Model.
Open Scope R_scope.

(** Eigen: a.transpose(), a * b *)
Definition tr (a : mat R) : mat R := mkMat (cols a) (rows a) (fun i j => ent a j i).
Definition mul (a b : mat R) : outcome (mat R) :=
  assert_ (Nat.eqb (cols a) (rows b))
    (Ok (mkMat (rows a) (cols b) (fun i j => sum (cols a) (fun k => ent a i k * ent b k j)))).
(** a * b * c, from the left *)
Definition mul3 (a b c : mat R) : outcome (mat R) := ab <- mul a b ;; mul ab c.
(** a + b + c *)
Definition add3 (a b c : mat R) : outcome (mat R) := ab <- madd a b ;; madd ab c.
(** T(i,j) is checked; all indices are below 3. *)
Definition has33 (T : mat R) : bool := (Nat.leb 3 (rows T) && Nat.leb 3 (cols T))%bool.

(** coordinate_base.cpp L37-43, L74-80: ids *)
Definition id1 (i : nat) : nat := match i with 0 => 0 | 1 => 1 | 2 => 2 | 3 => 0 | 4 => 1 | _ => 2 end.
Definition id2 (i : nat) : nat := match i with 0 => 0 | 1 => 1 | 2 => 2 | 3 => 1 | 4 => 2 | _ => 0 end.
(** coordinate_base.cpp L31-68 stress_strain_transformation_matrix; the columns j and j+3 of the loop are the
    columns below and from 3. *)
Definition tmat (T : mat R) : outcome (mat R) :=
  assert_ (has33 T) (Ok (mkMat 6 6 (fun i j =>
    if Nat.ltb j 3 then ent T (id1 j) (id1 i) * ent T (id2 j) (id2 i)
    else ent T (id1 j) (id1 i) * ent T (id2 j) (id2 i) + ent T (id1 j) (id2 i) * ent T (id2 j) (id1 i)))).
(** coordinate_base.cpp L72-102 stress_strain_transformation_matrix_sens *)
Definition tmat_sens (T dT : mat R) : outcome (mat R) :=
  assert_ (has33 T && has33 dT)%bool (Ok (mkMat 6 6 (fun i j =>
    if Nat.ltb j 3 then ent dT (id1 j) (id1 i) * ent T (id2 j) (id2 i) + ent T (id1 j) (id1 i) * ent dT (id2 j) (id2 i)
    else ent dT (id1 j) (id1 i) * ent T (id2 j) (id2 i) + ent T (id1 j) (id1 i) * ent dT (id2 j) (id2 i)
         + ent dT (id1 j) (id2 i) * ent T (id2 j) (id1 i) + ent T (id1 j) (id2 i) * ent dT (id2 j) (id1 i)))).

(** polar_coordinate.cpp L38-51 operator() *)
Definition polar (theta : R) : outcome (mat R) :=
  mk 3 3 (W 0 0 (cos theta) :: W 1 0 (sin theta) :: W 0 1 (- sin theta) :: W 1 1 (cos theta) :: W 2 2 1 :: nil).
(** L55-70 derivative *)
Definition polar_d (theta dtheta : R) : outcome (mat R) :=
  mk 3 3 (W 0 0 (- sin theta * dtheta) :: W 1 0 (cos theta * dtheta) :: W 0 1 (- cos theta * dtheta) :: W 1 1 (- sin theta * dtheta) :: nil).

(** orthotropic_element_property_card_3D.cpp L217-246 StiffnessMatrix::operator() *)
Definition stiff (C A : mat R) : outcome (mat R) := T <- tmat (tr A) ;; mul3 T C (tr T).
(** L250-280 derivative *)
Definition stiff_d (C dC A dA : mat R) : outcome (mat R) :=
  T <- tmat (tr A) ;; dT <- tmat_sens (tr A) (tr dA) ;;
  x <- mul3 dT C (tr T) ;; y <- mul3 T dC (tr T) ;; z <- mul3 T C (tr dT) ;; add3 x y z.
(** L333-360 ThermalExpansionMatrix::operator() *)
Definition therm (C a A : mat R) : outcome (mat R) := T <- tmat (tr A) ;; mul3 T C a.
(** L363-396 derivative *)
Definition therm_d (C dC a da A dA : mat R) : outcome (mat R) :=
  T <- tmat (tr A) ;; dT <- tmat_sens (tr A) (tr dA) ;;
  x <- mul3 dT C a ;; y <- mul3 T dC a ;; z <- mul3 T C da ;; add3 x y z.
(** L454-467 ThermalConductanceMatrix::operator() *)
Definition conduct (K A : mat R) : outcome (mat R) := mul3 (tr A) K A.
(** L472-492 derivative *)
Definition conduct_d (K dK A dA : mat R) : outcome (mat R) :=
  x <- mul3 (tr dA) K A ;; y <- mul3 (tr A) dK A ;; z <- mul3 (tr A) K dA ;; add3 x y z.

(** The functions of the card: the material and the orientation are evaluated first.  The isotropic card accepts a
    material card of any kind, and so does the orthotropic one, whose material is the orthotropic one here. *)
(** L217-246 *)
Definition card_stiff (v : props) (oA : outcome (mat R)) : outcome (mat R) :=
  C <- val_ orthotropic KStiff3 v ;; A <- oA ;; stiff C A.
(** L250-280 *)
Definition card_stiff_d (v d : props) (oA odA : outcome (mat R)) : outcome (mat R) :=
  C <- val_ orthotropic KStiff3 v ;; dC <- der_ orthotropic KStiff3 v d ;; A <- oA ;; dA <- odA ;; stiff_d C dC A dA.
(** L333-360 *)
Definition card_therm (v : props) (oA : outcome (mat R)) : outcome (mat R) :=
  C <- val_ orthotropic KStiff3 v ;; a <- val_ orthotropic (KExp 3) v ;; A <- oA ;; therm C a A.
(** L363-396 *)
Definition card_therm_d (v d : props) (oA odA : outcome (mat R)) : outcome (mat R) :=
  C <- val_ orthotropic KStiff3 v ;; dC <- der_ orthotropic KStiff3 v d ;;
  a <- val_ orthotropic (KExp 3) v ;; da <- der_ orthotropic (KExp 3) v d ;; A <- oA ;; dA <- odA ;; therm_d C dC a da A dA.
(** L454-467 *)
Definition card_conduct (v : props) (oA : outcome (mat R)) : outcome (mat R) :=
  K <- val_ orthotropic (KCond 3) v ;; A <- oA ;; conduct K A.
(** L472-492 *)
Definition card_conduct_d (v d : props) (oA odA : outcome (mat R)) : outcome (mat R) :=
  K <- val_ orthotropic (KCond 3) v ;; A <- oA ;; dK <- der_ orthotropic (KCond 3) v d ;; dA <- odA ;; conduct_d K dK A dA.

(** isotropic_element_property_card_3D.cpp: StiffnessMatrix L203-221 hands out the material's own matrix,
    ThermalExpansionMatrix::operator() L274-285 is m = m * mat, derivative L290-297 is libmesh_error(). *)
Definition iso_card_stiff (v : props) : outcome (mat R) := val_ isotropic KStiff3 v.
Definition iso_card_therm (v : props) : outcome (mat R) :=
  C <- val_ isotropic KStiff3 v ;; a <- val_ isotropic (KExp 3) v ;; mul C a.
Definition iso_card_therm_d (v d : props) : outcome (mat R) := Fault LibError.
