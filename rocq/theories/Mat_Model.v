(** Model of the material cards: /repo/src/property_cards/isotropic_material_property_card.cpp and
    orthotropic_material_property_card.cpp.
    A material card owns the functions it hands out; a function evaluates, at a point and a time, to a dense
    matrix computed from the values of the card's scalar properties there.  Numbers are reals; a division by
    zero, a read of an uninitialised variable and an Eigen size assertion are faults.
    The point and the time are left out: the properties' values there are the arguments. *)
From Coq Require Import List Arith Bool Reals.
From Verif Require Import Base RBool.
Import ListNotations.
Open Scope R_scope.

(** ** Dense matrices *)
(** Assignments m(i,j) = v, in order, with Eigen's index check. *)
Definition W (i j : nat) (v : R) : nat * nat * R := (i, j, v).
Arguments W (i j)%nat_scope v%R_scope.
Fixpoint wr (l : list (nat * nat * R)) (m : mat R) : outcome (mat R) :=
  match l with
  | [] => Ok m
  | (i, j, v) :: r => m' <- mset m i j v ;; wr r m'
  end.
Definition mk (r c : nat) (l : list (nat * nat * R)) : outcome (mat R) := wr l (mfill r c 0).
Arguments mk (r c)%nat_scope l.
(** a += b, with Eigen's size check; a *= c *)
Definition madd (a b : mat R) : outcome (mat R) :=
  assert_ ((rows a =? rows b)%nat && (cols a =? cols b)%nat)%bool
    (Ok (mkMat (rows a) (cols a) (fun i j => ent a i j + ent b i j))).
Definition mscl (c : R) (a : mat R) : mat R := mkMat (rows a) (cols a) (fun i j => ent a i j * c).
(** m.topLeftCorner(n,n) *= c *)
Definition corner_scl (n : nat) (c : R) (a : mat R) : mat R :=
  mkMat (rows a) (cols a) (fun i j => if (Nat.ltb i n && Nat.ltb j n)%bool then ent a i j * c else ent a i j).
(** m.topLeftCorner(n,n): a block must lie in the matrix. *)
Definition corner (n : nat) (a : mat R) : outcome (mat R) :=
  assert_ ((n <=? rows a)%nat && (n <=? cols a)%nat)%bool (Ok (mkMat n n (ent a))).
(** The loops "for i<n for j<n if (i==j) m(i,i)=a else m(i,j)=b". *)
Definition direct (n : nat) (a b : R) : list (nat * nat * R) :=
  flat_map (fun i => map (fun j => W i j (if Nat.eqb i j then a else b)) (seq 0 n)) (seq 0 n).
(** m(i,i) = a for off <= i < off+n *)
Definition diag (off n : nat) (a : R) : list (nat * nat * R) := map (fun i => W i i a) (seq off n).
(** Divisors of the expression that follows. *)
Fixpoint guard {A} (ds : list R) (k : outcome A) : outcome A :=
  match ds with
  | [] => k
  | d :: r => if reqb d 0 then Fault DivByZero else guard r k
  end.

(** ** Names of the properties of a card *)
Inductive pname :=
| E_ | nu_ | rho_ | alpha_ | cp_ | k_                                             (* isotropic *)
| E11_ | E22_ | E33_ | nu12_ | nu23_ | nu31_ | G12_ | G13_ | G23_                 (* orthotropic *)
| alpha11_ | alpha22_ | alpha33_ | k11_ | k22_ | k33_.
(** Values of the properties at a point, and of their derivatives with respect to a parameter. *)
Definition props := pname -> R.

(** The functions a card hands out. *)
Inductive fkind :=
| KStiff1 | KStiff2 (plane_stress : bool) | KStiff3 | KInertia3 | KShear
| KExp (dim : nat) | KCap (dim : nat) | KCond (dim : nat).

(** ** Isotropic material *)
(** isotropic_material_property_card.cpp L279-290 *)
Definition iso_K1 (v : props) : outcome (mat R) :=
  let E := v E_ in let nu := v nu_ in
  guard [1 + nu] (mk 2 2 [W 0 0 E; W 1 1 (E / 2 / (1 + nu))]).
(** L293-317 *)
Definition iso_K1_d (v d : props) : outcome (mat R) :=
  let E := v E_ in let nu := v nu_ in
  guard [1 + nu]
    (m0 <- mk 2 2 [] ;;
     dm <- mk 2 2 [W 0 0 1; W 1 1 (1 / 2 / (1 + nu))] ;;
     m1 <- madd m0 (mscl (d E_) dm) ;;
     dm2 <- wr [W 0 0 0; W 1 1 (- E / 2 / (1 + nu) ^ 2)] dm ;;
     madd m1 (mscl (d nu_) dm2)).
(** L334-345 *)
Definition iso_shear (v : props) : outcome (mat R) :=
  let E := v E_ in let nu := v nu_ in
  guard [1 + nu] (let G := E / 2 / (1 + nu) in mk 2 2 [W 0 0 G; W 1 1 G]).
(** L349-374: the derivative of G is put into the local matrix dm; the result m stays zero. *)
Definition iso_shear_d (v d : props) : outcome (mat R) :=
  let E := v E_ in let nu := v nu_ in
  guard [1 + nu]
    (m <- mk 2 2 [] ;;
     let dG := (1 / 2 / (1 + nu) * d E_) + (- E / 2 / (1 + nu) ^ 2 * d nu_) in
     _ <- mk 2 2 [W 1 1 dG; W 0 0 dG] ;;
     Ok m).
(** L395-426 *)
Definition iso_K2 (ps : bool) (v : props) : outcome (mat R) :=
  let E := v E_ in let nu := v nu_ in
  if ps
  then guard [1 - nu * nu; 1 + nu]
         (mk 3 3 (direct 2 (E / (1 - nu * nu)) (E * nu / (1 - nu * nu)) ++ [W 2 2 (E / 2 / (1 + nu))]))
  else guard [(1 + nu) * (1 - 2 * nu); 1 + nu]
         (mk 3 3 (direct 2 (E * (1 - nu) / ((1 + nu) * (1 - 2 * nu))) (E * nu / ((1 + nu) * (1 - 2 * nu)))
                    ++ [W 2 2 (E / 2 / (1 + nu))])).
(** L431-493 *)
Definition iso_K2_d (ps : bool) (v d : props) : outcome (mat R) :=
  let E := v E_ in let nu := v nu_ in
  if ps
  then guard [1 - nu * nu; 1 + nu]
         (m0 <- mk 3 3 [] ;;
          dm <- mk 3 3 (direct 2 (1 / (1 - nu * nu)) (1 * nu / (1 - nu * nu)) ++ [W 2 2 (1 / 2 / (1 + nu))]) ;;
          m1 <- madd m0 (mscl (d E_) dm) ;;
          dm2 <- wr (direct 2 (E / (1 - nu * nu) ^ 2 * 2 * nu) (E / (1 - nu * nu) + E * nu / (1 - nu * nu) ^ 2 * 2 * nu)
                       ++ [W 2 2 (- E / 2 / (1 + nu) ^ 2)]) dm ;;
          madd m1 (mscl (d nu_) dm2))
  else guard [(1 + nu) * (1 - 2 * nu); 1 + nu; 2 * nu * nu + nu - 1]
         (m0 <- mk 3 3 [] ;;
          dm <- mk 3 3 (direct 2 (1 * (1 - nu) / ((1 + nu) * (1 - 2 * nu))) (1 * nu / ((1 + nu) * (1 - 2 * nu)))
                          ++ [W 2 2 (1 / 2 / (1 + nu))]) ;;
          m1 <- madd m0 (mscl (d E_) dm) ;;
          dm2 <- wr (direct 2 (E * 2 * nu * (2 - nu) / (2 * nu * nu + nu - 1) ^ 2)
                              ((2 * nu * nu * E + E) / (2 * nu * nu + nu - 1) ^ 2)
                       ++ [W 2 2 (- E / 2 / (1 + nu) ^ 2)]) dm ;;
          madd m1 (mscl (d nu_) dm2)).
(** L512-528 *)
Definition iso_K3 (v : props) : outcome (mat R) :=
  let E := v E_ in let nu := v nu_ in
  guard [1 - nu - 2 * nu * nu; 1 + nu]
    (mk 6 6 (direct 3 (E * (1 - nu) / (1 - nu - 2 * nu * nu)) (E * nu / (1 - nu - 2 * nu * nu))
               ++ diag 3 3 (E / 2 / (1 + nu)))).
(** L533-567 *)
Definition iso_K3_d (v d : props) : outcome (mat R) :=
  let E := v E_ in let nu := v nu_ in
  guard [1 - nu - 2 * nu * nu; 1 + nu]
    (m0 <- mk 6 6 [] ;;
     dm <- mk 6 6 (direct 3 ((1 - nu) / (1 - nu - 2 * nu * nu)) (nu / (1 - nu - 2 * nu * nu))
                     ++ diag 3 3 (1 / 2 / (1 + nu))) ;;
     m1 <- madd m0 (mscl (d E_) dm) ;;
     dm2 <- wr (direct 3 (- E / (1 - nu - 2 * nu * nu) + E * (1 - nu) / (1 - nu - 2 * nu * nu) ^ 2 * (1 + 4 * nu))
                         (E / (1 - nu - 2 * nu * nu) + E * nu / (1 - nu - 2 * nu * nu) ^ 2 * (1 + 4 * nu))
                  ++ diag 3 3 (- E / 2 / (1 + nu) ^ 2)) dm ;;
     madd m1 (mscl (d nu_) dm2)).
(** L580-609; the same in orthotropic_material_property_card.cpp L838-867 *)
Definition inertia3 (v : props) : outcome (mat R) := mk 3 3 (diag 0 3 (v rho_)).
Definition inertia3_d (d : props) : outcome (mat R) := mk 3 3 (diag 0 3 (d rho_)).
(** The column set to zero by the switch over the dimension: L621-633, L653-665 (a dimension outside 1..3 is
    refused when the function is requested). *)
Definition exp_rows (dim : nat) : nat := match dim with 1%nat => 2 | 2%nat => 3 | _ => 6 end%nat.
(** L613-670 *)
Definition iso_exp (dim : nat) (v : props) : outcome (mat R) :=
  mk (exp_rows dim) 1 (map (fun i => W i 0 (v alpha_)) (seq 0 dim)).
Definition iso_exp_d (dim : nat) (d : props) : outcome (mat R) :=
  mk (exp_rows dim) 1 (map (fun i => W i 0 (d alpha_)) (seq 0 dim)).
(** L676-710; the same in orthotropic_material_property_card.cpp L936-970 *)
Definition cap (v : props) : outcome (mat R) := mk 1 1 [W 0 0 (v cp_ * v rho_)].
Definition cap_d (v d : props) : outcome (mat R) := mk 1 1 [W 0 0 (d cp_ * v rho_ + v cp_ * d rho_)].
(** L715-747: m.setIdentity(dim, dim); m *= k *)
Definition ident (n : nat) : mat R := mkMat n n (fun i j => if Nat.eqb i j then 1 else 0).
Definition iso_cond (dim : nat) (v : props) : outcome (mat R) := Ok (mscl (v k_) (ident dim)).
Definition iso_cond_d (dim : nat) (d : props) : outcome (mat R) := Ok (mscl (d k_) (ident dim)).

Definition iso_val (k : fkind) (v : props) : outcome (mat R) :=
  match k with
  | KStiff1 => iso_K1 v | KStiff2 ps => iso_K2 ps v | KStiff3 => iso_K3 v | KInertia3 => inertia3 v
  | KShear => iso_shear v | KExp n => iso_exp n v | KCap _ => cap v | KCond n => iso_cond n v
  end.
Definition iso_der (k : fkind) (v d : props) : outcome (mat R) :=
  match k with
  | KStiff1 => iso_K1_d v d | KStiff2 ps => iso_K2_d ps v d | KStiff3 => iso_K3_d v d | KInertia3 => inertia3_d d
  | KShear => iso_shear_d v d | KExp n => iso_exp_d n d | KCap _ => cap_d v d | KCond n => iso_cond_d n d
  end.
(** The properties fetched from the card when the function is made (L797-1053) ... *)
Definition iso_needs (k : fkind) : list pname :=
  match k with
  | KStiff1 | KStiff2 _ | KStiff3 | KShear => [E_; nu_]
  | KInertia3 => [rho_] | KExp _ => [alpha_] | KCap _ => [rho_; cp_] | KCond _ => [k_]
  end.
(** ... and those its constructor registers in _functions, which depends_on() consults (L265-274, L320-330,
    L379-390, L497-506, L571-577 and the class declarations L180-258). *)
Definition iso_reg (k : fkind) : list pname := iso_needs k.

(** ** Orthotropic material *)
(** orthotropic_material_property_card.cpp L354-384 *)
Definition ort_K1 (v : props) : outcome (mat R) := mk 2 2 [W 0 0 (v E11_); W 1 1 (v G12_)].
Definition ort_K1_d (d : props) : outcome (mat R) := mk 2 2 [W 0 0 (d E11_); W 1 1 (d G12_)].
(** L397-450 *)
Definition ort_shear (v : props) : outcome (mat R) := mk 2 2 [W 0 0 (v G12_); W 1 1 (v G12_)].
Definition ort_shear_d (d : props) : outcome (mat R) := mk 2 2 [W 0 0 (d G12_); W 1 1 (d G12_)].
(** The divisor of L521-534. *)
Definition ort_den (v : props) : R :=
  let E11 := v E11_ in let E22 := v E22_ in let E33 := v E33_ in
  let nu12 := v nu12_ in let nu23 := v nu23_ in let nu31 := v nu31_ in
  (E22 * E22) * E33 * (nu12 * nu12) + E11 * (E33 * E33) * (nu23 * nu23) + (E11 * E11) * E22 * (nu31 * nu31)
  - E11 * E22 * E33 + E11 * E22 * E33 * nu12 * nu23 * nu31 * 2.
(** L483-536 *)
Definition ort_K2 (ps : bool) (v : props) : outcome (mat R) :=
  let E11 := v E11_ in let E22 := v E22_ in let E33 := v E33_ in
  let nu12 := v nu12_ in let nu23 := v nu23_ in let nu31 := v nu31_ in
  guard [E11]
   (let nu21 := nu12 * E22 / E11 in
    if ps
    then let D := 1 - nu12 * nu21 in
         guard [D]
          (m <- mk 3 3 [W 0 0 E11; W 0 1 (nu21 * E11); W 1 0 (nu12 * E22); W 1 1 E22] ;;
           wr [W 2 2 (v G12_)] (corner_scl 2 (/ D) m))
    else guard [ort_den v]
          (let o := - (E11 * E22 * E33 * (E22 * nu12 + E11 * nu23 * nu31)) / ort_den v in
           mk 3 3 [W 0 0 (- ((E11 * E11) * E33 * (E22 - E33 * (nu23 * nu23))) / ort_den v);
                   W 1 1 (- (E11 * (E22 * E22) * (E33 - E11 * (nu31 * nu31))) / ort_den v);
                   W 2 2 (v G12_); W 1 0 o; W 0 1 o])).
(** L541-661.  Lines 561-562 read nu23 and nu31 into nu12 (and their derivatives into dnu12df), so nu12 holds
    the value of nu31; in the plane strain branch nu23, nu31 and their derivatives are then used without having
    been initialised.  In the plane stress branch line 587 adds a 3x3 block to a 2x2 block. *)
Definition ort_K2_d (ps : bool) (v d : props) : outcome (mat R) :=
  let E11 := v E11_ in let E22 := v E22_ in
  let nu12 := v nu31_ in let dnu12 := d nu31_ in
  if ps
  then guard [E11]
   (let nu21 := nu12 * E22 / E11 in
    let dnu21 := dnu12 * E22 / E11 + nu12 * d E22_ / E11 - nu12 * E22 / E11 / E11 * d E11_ in
    let D := 1 - nu12 * nu21 in
    let dD := - dnu12 * nu21 - nu12 * dnu21 in
    guard [D]
     (m <- mk 3 3 [W 0 0 E11; W 0 1 (nu21 * E11); W 1 0 (nu12 * E22); W 1 1 E22] ;;
      m <- wr [W 2 2 (d G12_)] (corner_scl 2 (- dD / D / D) m) ;;
      dm <- mk 3 3 [W 0 0 (d E11_); W 0 1 (nu21 * d E11_ + dnu21 * E11); W 1 0 (nu12 * d E22_ + dnu12 * E22);
                    W 1 1 (d E22_)] ;;
      a <- corner 2 m ;;
      b <- corner 3 dm ;;
      s <- madd a (mscl (/ D) b) ;;
      Ok (mkMat 3 3 (fun i j => if (Nat.ltb i 2 && Nat.ltb j 2)%bool then ent s i j else ent m i j))))
  else Fault Uninit.
(** L701-739: the dependent Poisson's ratios and the divisor ... *)
Definition nu21 (v : props) : R := v nu12_ * v E22_ / v E11_.
Definition nu13 (v : props) : R := v nu31_ * v E11_ / v E33_.
Definition nu32 (v : props) : R := v nu23_ * v E33_ / v E22_.
Definition ort_D (v : props) : R :=
  1 - v nu12_ * nu21 v - nu13 v * v nu31_ - v nu23_ * nu32 v - v nu12_ * v nu23_ * v nu31_ - nu13 v * nu21 v * nu32 v.
(** ... the assignments of the upper left block ... *)
Definition ort_block (v : props) : list (nat * nat * R) :=
  let E11 := v E11_ in let E22 := v E22_ in let E33 := v E33_ in
  let nu12 := v nu12_ in let nu23 := v nu23_ in let nu31 := v nu31_ in
  let nu21 := nu21 v in let nu13 := nu13 v in let nu32 := nu32 v in
  [W 0 0 ((1 - nu23 * nu32) * E11); W 0 1 ((nu21 + nu23 * nu31) * E11); W 0 2 ((nu31 + nu21 * nu32) * E11);
   W 1 0 ((nu12 + nu13 * nu32) * E22); W 1 1 ((1 - nu13 * nu31) * E22); W 1 2 ((nu32 + nu12 * nu31) * E22);
   W 2 0 ((nu13 + nu12 * nu23) * E33); W 2 1 ((nu23 + nu13 * nu21) * E33); W 2 2 ((1 - nu12 * nu21) * E33)].
Definition ort_K3 (v : props) : outcome (mat R) :=
  guard [v E11_; v E33_; v E22_; ort_D v]
   (m <- mk 6 6 (ort_block v) ;;
    wr [W 3 3 (v G12_); W 4 4 (v G23_); W 5 5 (v G13_)] (corner_scl 3 (/ ort_D v) m)).
(** ... and their derivatives, L744-824 *)
Definition ort_K3_d (v d : props) : outcome (mat R) :=
  let E11 := v E11_ in let E22 := v E22_ in let E33 := v E33_ in
  let nu12 := v nu12_ in let nu23 := v nu23_ in let nu31 := v nu31_ in
  let dE11 := d E11_ in let dE22 := d E22_ in let dE33 := d E33_ in
  let dnu12 := d nu12_ in let dnu23 := d nu23_ in let dnu31 := d nu31_ in
  let nu21 := nu21 v in let nu13 := nu13 v in let nu32 := nu32 v in
  let dnu21 := dnu12 * E22 / E11 + nu12 * dE22 / E11 - nu12 * E22 / E11 / E11 * dE11 in
  let dnu13 := dnu31 * E11 / E33 + nu31 * dE11 / E33 - nu31 * E11 / E33 / E33 * dE33 in
  let dnu32 := dnu23 * E33 / E22 + nu23 * dE33 / E22 - nu23 * E33 / E22 / E22 * dE22 in
  let D := ort_D v in
  let dD := - dnu12 * nu21 - nu12 * dnu21 - dnu13 * nu31 - nu13 * dnu31 - dnu23 * nu32 - nu23 * dnu32
            - dnu12 * nu23 * nu31 - nu12 * dnu23 * nu31 - nu12 * nu23 * dnu31
            - dnu13 * nu21 * nu32 - nu13 * dnu21 * nu32 - nu13 * nu21 * dnu32 in
  guard [E11; E33; E22; D]
   (m <- mk 6 6 (ort_block v) ;;
    m <- wr [W 3 3 (d G12_); W 4 4 (d G23_); W 5 5 (d G13_)] (mscl (- dD / D / D) m) ;;
    dm <- mk 6 6
      [W 0 0 ((- dnu23 * nu32 - nu23 * dnu32) * E11 + (1 - nu23 * nu32) * dE11);
       W 0 1 ((dnu21 + dnu23 * nu31 + nu23 * dnu31) * E11 + (nu21 + nu23 * nu31) * dE11);
       W 0 2 ((dnu31 + dnu21 * nu32 + nu21 * dnu32) * E11 + (nu31 + nu21 * nu32) * dE11);
       W 1 0 ((dnu12 + dnu13 * nu32 + nu13 * dnu32) * E22 + (nu12 + nu13 * nu32) * dE22);
       W 1 1 ((- dnu13 * nu31 - nu13 * dnu31) * E22 + (1 - nu13 * nu31) * dE22);
       W 1 2 ((dnu32 + dnu12 * nu31 + nu12 * dnu31) * E22 + (nu32 + nu12 * nu31) * dE22);
       W 2 0 ((dnu13 + dnu12 * nu23 + nu12 * dnu23) * E33 + (nu13 + nu12 * nu23) * dE33);
       W 2 1 ((dnu23 + dnu13 * nu21 + nu13 * dnu21) * E33 + (nu23 + nu13 * nu21) * dE33);
       W 2 2 ((- dnu12 * nu21 - nu12 * dnu21) * E33 + (1 - nu12 * nu21) * dE33)] ;;
    madd m (mscl (/ D) dm)).
(** L870-930: the i-th direction has its own coefficient. *)
Definition alpha_of (i : nat) : pname := match i with 0%nat => alpha11_ | 1%nat => alpha22_ | _ => alpha33_ end.
Definition ort_exp (dim : nat) (v : props) : outcome (mat R) :=
  mk (exp_rows dim) 1 (map (fun i => W i 0 (v (alpha_of i))) (seq 0 dim)).
(** L975-1007 *)
Definition k_of (i : nat) : pname := match i with 0%nat => k11_ | 1%nat => k22_ | _ => k33_ end.
Definition ort_cond (dim : nat) (v : props) : outcome (mat R) :=
  mk dim dim (map (fun i => W i i (v (k_of i))) (seq 0 dim)).

Definition ort_val (k : fkind) (v : props) : outcome (mat R) :=
  match k with
  | KStiff1 => ort_K1 v | KStiff2 ps => ort_K2 ps v | KStiff3 => ort_K3 v | KInertia3 => inertia3 v
  | KShear => ort_shear v | KExp n => ort_exp n v | KCap _ => cap v | KCond n => ort_cond n v
  end.
Definition ort_der (k : fkind) (v d : props) : outcome (mat R) :=
  match k with
  | KStiff1 => ort_K1_d d | KStiff2 ps => ort_K2_d ps v d | KStiff3 => ort_K3_d v d | KInertia3 => inertia3_d d
  | KShear => ort_shear_d d | KExp n => ort_exp n d | KCap _ => cap_d v d | KCond n => ort_cond n d
  end.
(** L1056-1326 *)
Definition ort_needs (k : fkind) : list pname :=
  match k with
  | KStiff1 => [E11_; G12_]
  | KStiff2 _ => [E11_; E22_; E33_; nu12_; nu23_; nu31_; G12_]
  | KStiff3 => [E11_; E22_; E33_; nu12_; nu31_; nu23_; G12_; G13_; G23_]
  | KShear => [G12_] | KInertia3 => [rho_] | KCap _ => [rho_; cp_]
  | KExp n => map alpha_of (seq 0 n) | KCond n => map k_of (seq 0 n)
  end.
(** The constructors: L340-349, L386-393, L455-478 (E33, nu23 and nu31 are not registered), L665-695, L827-834 and
    the class declarations L170-334. *)
Definition ort_reg (k : fkind) : list pname :=
  match k with
  | KStiff2 _ => [E11_; E22_; nu12_; G12_]
  | _ => ort_needs k
  end.

(** ** The cards *)
(** What the cards of the two classes differ in. *)
Record material := mkMaterial { val_ : fkind -> props -> outcome (mat R); der_ : fkind -> props -> props -> outcome (mat R);
                                needs : fkind -> list pname; reg : fkind -> list pname }.
Definition isotropic : material := mkMaterial iso_val iso_der iso_needs iso_reg.
Definition orthotropic : material := mkMaterial ort_val ort_der ort_needs ort_reg.

(** The members of a card that hold the functions made so far (isotropic L753-770, orthotropic L1011-1028). *)
Inductive slot :=
| SStiff (dim : nat) | SInertia3 | SShear | SExp (dim : nat) | SCap (dim : nat) | SCond (dim : nat).
Definition slot_eqb (a b : slot) : bool :=
  match a, b with
  | SStiff m, SStiff n | SExp m, SExp n | SCap m, SCap n | SCond m, SCond n => Nat.eqb m n
  | SInertia3, SInertia3 | SShear, SShear => true
  | _, _ => false
  end.
(** A function object: its address and what it computes. *)
Record fobj := mkF { f_addr : nat; f_kind : fkind }.
(** c_has: the properties added to the card; c_next: the next address the allocator returns. *)
Record card := mkCard { c_has : pname -> bool; c_slots : list (slot * fobj); c_next : nat }.
Definition new_card (has : pname -> bool) (base : nat) : card := mkCard has [] base.
(** The requests of the interface. *)
Inductive request :=
| RStiffness (dim : nat) (plane_stress : bool) | RDamping (dim : nat) | RInertia (dim : nat)
| RExpansion (dim : nat) | RShear | RCapacitance (dim : nat) | RConductance (dim : nat).
Definition dim_ok (d : nat) : bool := (Nat.eqb d 1 || Nat.eqb d 2 || Nat.eqb d 3)%bool.
(** The member a request looks at and the function it makes if the member is null; a dimension not listed in the
    switch is an error, and damping_matrix() asserts false. *)
Definition plan (r : request) : outcome (slot * fkind) :=
  match r with
  | RStiffness d ps => match d with
                       | 1%nat => Ok (SStiff 1, KStiff1) | 2%nat => Ok (SStiff 2, KStiff2 ps) | 3%nat => Ok (SStiff 3, KStiff3)
                       | _ => Fault LibError
                       end
  | RDamping _ => Fault AssertFailed
  | RInertia d => if Nat.eqb d 3 then Ok (SInertia3, KInertia3) else Fault LibError
  | RExpansion d => if dim_ok d then Ok (SExp d, KExp d) else Fault LibError
  | RShear => Ok (SShear, KShear)
  | RCapacitance d => if dim_ok d then Ok (SCap d, KCap d) else Fault LibError
  | RConductance d => if dim_ok d then Ok (SCond d, KCond d) else Fault LibError
  end.
Fixpoint lookup (s : slot) (l : list (slot * fobj)) : option fobj :=
  match l with
  | [] => None
  | (s', f) :: r => if slot_eqb s s' then Some f else lookup s r
  end.
(** isotropic L797-1053, orthotropic L1056-1326: the member is filled on the first request and returned on every
    one; get<> refuses a property the card does not have. *)
Definition ask (M : material) (c : card) (r : request) : outcome (fobj * card) :=
  p <- plan r ;;
  let '(s, k) := p in
  match lookup s (c_slots c) with
  | Some f => Ok (f, c)
  | None =>
      assert_ (forallb (c_has c) (needs M k))
        (let f := mkF (c_next c) k in Ok (f, mkCard (c_has c) ((s, f) :: c_slots c) (S (c_next c))))
  end.
(** A history of requests; a request that fails raises an exception (or stops the program) and leaves the card. *)
Fixpoint asks (M : material) (c : card) (l : list request) : list (request * outcome fobj) * card :=
  match l with
  | [] => ([], c)
  | r :: l' => match ask M c r with
               | Ok (f, c') => let '(t, e) := asks M c' l' in ((r, Ok f) :: t, e)
               | Fault x => let '(t, e) := asks M c l' in ((r, Fault x) :: t, e)
               end
  end.
(** The destructors, isotropic L774-794, orthotropic L1032-1052: the addresses deleted. *)
Definition slots_all : list slot :=
  [SStiff 1; SStiff 2; SStiff 3; SInertia3; SExp 1; SExp 2; SExp 3; SShear; SCap 1; SCap 2; SCap 3; SCond 1; SCond 2; SCond 3].
Definition destroy (c : card) : list nat :=
  flat_map (fun s => match lookup s (c_slots c) with Some f => [f_addr f] | None => [] end) slots_all.
