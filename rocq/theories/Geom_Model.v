(** Model of the local coordinate systems of 1D and 2D elements, /repo/src/mesh/geom_elem.cpp, of the transformation
    of the unknowns of structural elements, and of the inertia of 1D and 2D structural elements,
    /repo/src/elasticity/structural_element_base.cpp.  Values are exact reals; a division by zero, NaN in C++ and an
    assertion of libMesh in debug mode, is a fault. *)
From Coq Require Import List Arith Bool Reals.
From Verif Require Import Base RBool.
Import ListNotations.
Open Scope R_scope.

(** libMesh::Point: components 0, 1, 2 *)
Definition point : Type := nat -> R.
Definition psub (a b : point) : point := fun i => a i - b i.
Definition cross (a b : point) : point := fun i => match i with
  | O => a 1%nat * b 2%nat - a 2%nat * b 1%nat
  | S O => a 2%nat * b 0%nat - a 0%nat * b 2%nat
  | _ => a 0%nat * b 1%nat - a 1%nat * b 0%nat end.
Definition norm (a : point) : R := sqrt (sum 3 (fun i => a i * a i)).
(** v /= s *)
Definition pdiv (a : point) (s : R) : outcome point := if reqb s 0 then Fault DivByZero else Ok (fun i => a i / s).

(** _T_mat, the nodes of _local_elem and _domain_surface_normal *)
Record local_elem : Type := mkLocal { T : nat -> nat -> R; lnode : nat -> point; normal : option point }.

(** geom_elem.cpp L435-456 and L489-510: the matrix and the nodes in the new axes *)
Definition tmat (v1 v2 v3 : point) (i j : nat) : R := match j with O => v1 i | S O => v2 i | _ => v3 i end.
Definition local_nodes (t : nat -> nat -> R) (nodes : nat -> point) (i : nat) : point :=
  fun j => sum 3 (fun k => t k j * psub (nodes i) (nodes O) k).

(** geom_elem.cpp L383-457 _init_local_elem_1d; [y] is _local_y, None if its size is zero.  The assertion on the
    size of _local_y comes before the code that would choose a vector. *)
Definition init_local_elem_1d (nodes : nat -> point) (y : option point) : outcome local_elem :=
  match y with
  | None => Fault AssertFailed
  | Some y =>
    let d := psub (nodes 1%nat) (nodes O) in
    v1 <- pdiv d (norm d) ;;
    let c := cross v1 y in
    assert_ (rltb 0 (norm c))
    (v3 <- pdiv c (norm c) ;;
     let c := cross v3 v1 in
     v2 <- pdiv c (norm c) ;;
     Ok (mkLocal (tmat v1 v2 v3) (local_nodes (tmat v1 v2 v3) nodes) None))
  end.
(** geom_elem.cpp L460-512 _init_local_elem_2d *)
Definition init_local_elem_2d (nodes : nat -> point) : outcome local_elem :=
  let d := psub (nodes 1%nat) (nodes O) in
  v1 <- pdiv d (norm d) ;;
  let d := psub (nodes 2%nat) (nodes O) in
  v2 <- pdiv d (norm d) ;;
  let c := cross v1 v2 in
  v3 <- pdiv c (norm c) ;;
  let c := cross v3 v1 in
  v2 <- pdiv c (norm c) ;;
  Ok (mkLocal (tmat v1 v2 v3) (local_nodes (tmat v1 v2 v3) nodes) (Some v3)).
(** geom_elem.cpp L331-380 _init_local_elem; the result is Some if _use_local_elem is set *)
Definition differs (nodes : nat -> point) (n : nat) (k : nat) : bool :=
  existsb (fun i => negb (reqb (Rabs (nodes O k - nodes i k)) 0)) (seq 1 (n - 1)).
Definition init_local_elem (dim n : nat) (nodes : nat -> point) (y : option point) : outcome (option local_elem) :=
  match dim with
  | 1 => if differs nodes n 1 || differs nodes n 2 then e <- init_local_elem_1d nodes y ;; Ok (Some e) else Ok None
  | 2 => if differs nodes n 2 then e <- init_local_elem_2d nodes ;; Ok (Some e) else Ok None
  | 3 => Ok None
  | _ => Fault LibError
  end%nat.

(** L233-317: T_matrix, domain_surface_normal and the transformations; [e] is the result of the initialisation *)
Definition T_matrix (e : option local_elem) : outcome (nat -> nat -> R) :=
  match e with Some e => Ok (T e) | None => Fault AssertFailed end.
Definition domain_surface_normal (e : option local_elem) : option point :=
  match e with Some e => normal e | None => None end.
Definition transform_point_to_global (e : option local_elem) (nodes : nat -> point) (p : point) : outcome point :=
  t <- T_matrix e ;; Ok (fun j => sum 3 (fun k => t j k * p k) + nodes O j).
Definition transform_vector_to_global (e : option local_elem) (p : point) : outcome point :=
  t <- T_matrix e ;; Ok (fun j => sum 3 (fun k => t j k * p k)).
Definition transform_vector_to_local (e : option local_elem) (p : point) : outcome point :=
  t <- T_matrix e ;; Ok (fun j => sum 3 (fun k => t k j * p k)).

(** Eigen products with their size checks *)
Definition mul_mv (m : mat R) (v : arr R) : outcome (arr R) :=
  assert_ (cols m =? len v)%nat (Ok (mkArr (rows m) (fun i => sum (cols m) (fun k => ent m i k * cell v k)))).
Definition mul_mm (m p : mat R) : outcome (mat R) :=
  assert_ (cols m =? rows p)%nat (Ok (mkMat (rows m) (cols p) (fun i j => sum (cols m) (fun k => ent m i k * ent p k j)))).
Definition transpose (m : mat R) : mat R := mkMat (cols m) (rows m) (fun i j => ent m j i).

(** structural_element_base.cpp L1579-1594, L1620-1634, L1656-1670: the matrix of the transformation of all unknowns *)
Definition big_T (n_dofs : nat) (t : nat -> nat -> R) : outcome (mat R) :=
  loop n_dofs (fun i m => loop 3 (fun j m => loop 3 (fun k m =>
    m <- mset m (j * n_dofs + i) (k * n_dofs + i) (t j k) ;;
    mset m ((j + 3) * n_dofs + i) ((k + 3) * n_dofs + i) (t j k)) m) m) (mfill (6 * n_dofs) (6 * n_dofs) 0).

(** L1566-1602 transform_matrix_to_global_system *)
Definition matrix_to_global (dim : nat) (e : option local_elem) (m : mat R) : outcome (mat R) :=
  assert_ (dim <? 3)%nat (assert_ (rows m =? cols m)%nat
  (match e with
   | Some _ => t <- T_matrix e ;; b <- big_T (rows m / 6) t ;; p <- mul_mm b m ;; mul_mm p (transpose b)
   | None => Ok m end)).
(** L1606-1640 transform_vector_to_local_system *)
Definition vector_to_local (dim : nat) (e : option local_elem) (v : arr R) : outcome (arr R) :=
  assert_ (dim <? 3)%nat
  (match e with
   | Some _ => t <- T_matrix e ;; b <- big_T (len v / 6) t ;; mul_mv (transpose b) v
   | None => Ok v end).
(** L1642-1676 transform_vector_to_global_system *)
Definition vector_to_global (dim : nat) (e : option local_elem) (v : arr R) : outcome (arr R) :=
  assert_ (dim <? 3)%nat
  (match e with
   | Some _ => t <- T_matrix e ;; b <- big_T (len v / 6) t ;; mul_mv b v
   | None => Ok v end).
(** L56-83 set_solution, the same for the velocity and the acceleration: what is stored as local vector *)
Definition set_solution (dim : nat) (e : option local_elem) (v : arr R) : outcome (arr R) :=
  if (dim =? 3)%nat then Ok v else vector_to_local dim e v.

(** v += w and m += p of Eigen, with the size check *)
Definition vplus (v w : arr R) : outcome (arr R) :=
  assert_ (len v =? len w)%nat (Ok (mkArr (len v) (fun i => cell v i + cell w i))).
Definition mplus (m p : mat R) : outcome (mat R) :=
  assert_ ((rows m =? rows p) && (cols m =? cols p))%nat (Ok (mkMat (rows m) (cols m) (fun i j => ent m i j + ent p i j))).

(** one quadrature point *)
Record ipt : Type := mkI { ijxw : R; iphi : nat -> R; inert : mat R (* inertia matrix there *) }.

(** L256-354 inertial_residual (and L402-502 inertial_residual_sensitivity with the derivative of the inertia
    matrix).  FEMOperatorMatrix::reinit with six variables is used through what it computes: entry (r, c*n + a) of
    the product with a matrix D is D(r, c) * phi[a], see C02. *)
Definition mass_point (n : nat) (q : ipt) (k l : nat) : R :=
  iphi q (k mod n) * (ent (inert q) (k / n) (l / n) * iphi q (l mod n)).
Definition local_inertia (n : nat) (diagonal : bool) (qs : list ipt) (acc : arr R) (req : bool) : outcome (arr R * mat R) :=
  let zero := mfill (6 * n) (6 * n) 0 in
  if diagonal then
    match qs with
    | [] => Fault OutOfBounds
    | q0 :: _ =>
      let vol := fold_left (fun v q => v + ijxw q) qs 0 / INR n in
      m <- loop 6 (fun c m => loop n (fun a m =>
             d <- mget (inert q0) c c ;; mset m (c * n + a) (c * n + a) (vol * d)) m) zero ;;
      v <- mul_mv m acc ;;
      Ok (v, m)
    end
  else
    fold_left (fun s q => s <- s ;;
        assert_ ((rows (inert q) =? 6) && (cols (inert q) =? 6))%nat
        (v <- mul_mv (mkMat 6 (6 * n) (fun r l => ent (inert q) r (l / n) * iphi q (l mod n))) acc ;;
         Ok (mkArr (6 * n) (fun k => cell (fst s) k + ijxw q * (iphi q (k mod n) * cell v (k / n)%nat)),
             if req then mkMat (6 * n) (6 * n) (fun k l => ent (snd s) k l + ijxw q * mass_point n q k l) else snd s)))
      qs (Ok (fill (6 * n) 0, zero)).
Definition inertial_residual (dim n : nat) (e : option local_elem) (diagonal : bool) (qs : list ipt) (acc : arr R) (req : bool)
    (f : arr R) (jm : mat R) : outcome (arr R * mat R) :=
  la <- set_solution dim e acc ;;
  s <- local_inertia n diagonal qs la req ;;
  if (dim <? 3)%nat then
    v <- vector_to_global dim e (fst s) ;;
    f <- vplus f v ;;
    if req then (m <- matrix_to_global dim e (snd s) ;; jm <- mplus jm m ;; Ok (f, jm)) else Ok (f, jm)
  else
    f <- vplus f (fst s) ;;
    if req then (jm <- mplus jm (snd s) ;; Ok (f, jm)) else Ok (f, jm).

(** L223-252 linearized_internal_residual; [internal] is internal_residual, which adds to its arguments a vector and
    a matrix of [n2] unknowns given in the global system *)
Definition add_internal (iv : arr R) (im : mat R) (v : arr R) (m : mat R) : outcome (arr R * mat R) :=
  v <- vplus v iv ;; m <- mplus m im ;; Ok (v, m).
Definition linearized_internal_residual (dim : nat) (e : option local_elem) (iv : arr R) (im : mat R) (delta : arr R)
    (req : bool) (f : arr R) (j : mat R) : outcome (arr R * mat R) :=
  ld <- set_solution dim e delta ;;
  let n2 := (6 * len f)%nat in
  s <- add_internal iv im (fill n2 0) (mfill n2 n2 0) ;;
  p <- mul_mv (snd s) ld ;;
  f <- vplus f p ;;
  if req then (j <- mplus j (snd s) ;; Ok (f, j)) else Ok (f, j).
