(** Model of the interfaces to LAPACK's dense eigensolvers:
    /repo/src/numerics/lapack_dggev_interface.{h,cpp}, lapack_dgeev_interface.{h,cpp}, lapack_zggev_base.h,
    lapack_zggev_interface.cpp and lapack_zggevx_interface.cpp.
    LAPACK itself is external: its raw output is an argument.  Matrices are functions of row and column, complex numbers are
    Coquelicot's C, reals stand for double. *)
From Coq Require Import Reals.
From Coquelicot Require Import Coquelicot.
From Coq Require Import List Arith Bool.
From Verif Require Import Base.
Import ListNotations.
Open Scope R_scope.

Definition cvec := nat -> C.
Definition cmat := nat -> nat -> C.
Fixpoint csum (n : nat) (f : nat -> C) : C := match n with O => RtoC 0 | S k => Cplus (csum k f) (f k) end.
Definition put (v : cvec) (k : nat) (x : C) : cvec := fun i => if (i =? k)%nat then x else v i.
Definition put_col (m : cmat) (k : nat) (x : cvec) : cmat := fun i j => if (j =? k)%nat then x i else m i j.
Definition putr (v : nat -> R) (k : nat) (x : R) : nat -> R := fun i => if (i =? k)%nat then x else v i.

(** the raw output of dggev_ / dgeev_: aval_r, aval_i, bval, vecl, vecr (row, column) and info *)
Record raw : Type := mkRaw { ra : nat -> R; ri : nat -> R; rb : nat -> R; rl : nat -> nat -> R; rr : nat -> nat -> R; r_info : nat }.
(** the members of the object *)
Record eigsol : Type := mkEs { alpha : cvec; beta : nat -> R; VL : cmat; VR : cmat; info_val : nat }.

(** column k with imaginary part from column k + 1 and sign s *)
Definition pair_col (m : nat -> nat -> R) (k : nat) (s : R) : cvec := fun i => (m i k, s * m i (S k)).
(** one pass of the loop for a complex conjugate pair, lapack_dggev_interface.cpp L95-122 *)
Definition store_pair (vecs : bool) (w : raw) (k : nat) (s : eigsol) : eigsol :=
  mkEs (put (put (alpha s) k (ra w k, ri w k)) (S k) (ra w k, - ri w k))
       (putr (putr (beta s) k (rb w k)) (S k) (rb w k))
       (if vecs then put_col (put_col (VL s) k (pair_col (rl w) k 1)) (S k) (pair_col (rl w) k (-1)) else VL s)
       (if vecs then put_col (put_col (VR s) k (pair_col (rr w) k 1)) (S k) (pair_col (rr w) k (-1)) else VR s)
       (info_val s).
(** and for a real root, L123-138 *)
Definition store_real (vecs : bool) (w : raw) (k : nat) (s : eigsol) : eigsol :=
  mkEs (put (alpha s) k (ra w k, 0)) (putr (beta s) k (rb w k))
       (if vecs then put_col (VL s) k (fun i => (rl w i k, 0)) else VL s)
       (if vecs then put_col (VR s) k (fun i => (rr w i k, 0)) else VR s)
       (info_val s).
(** the loop over n_located, L86-140 (the same in lapack_dgeev_interface.cpp L78-125); alpha(1+n_located) must exist *)
Fixpoint unpack (fuel : nat) (n : nat) (vecs : bool) (w : raw) (k : nat) (s : eigsol) : outcome eigsol :=
  if (n <=? k)%nat then Ok s else
  match fuel with
  | O => Fault OutOfFuel
  | S f =>
      if Req_EM_T (ri w k) 0 then unpack f n vecs w (S k) (store_real vecs w k s)
      else if (n <=? S k)%nat then Fault OutOfBounds
      else unpack f n vecs w (S (S k)) (store_pair vecs w k s)
  end.
(** LAPACK_DGGEV::compute, L27-146, after the sizes were checked; [old]: the members before the call.  VL and VR are zeroed only if
    eigenvectors are asked for (L45-50). *)
Definition compute (n : nat) (square : bool) (vecs : bool) (w : raw) (old : eigsol) : outcome eigsol :=
  assert_ square
  (let z := fun _ : nat => RtoC 0 in
   unpack n n vecs w 0 (mkEs z (fun _ => 0) (if vecs then fun _ => z else VL old) (if vecs then fun _ => z else VR old) (r_info w))).
(** LAPACK_DGEEV::compute, lapack_dgeev_interface.cpp L25-135: the same loop, without a denominator *)
Definition compute_standard (n : nat) (square : bool) (vecs : bool) (w : raw) (old : eigsol) : outcome eigsol :=
  compute n square vecs (mkRaw (ra w) (ri w) (fun _ => 1) (rl w) (rr w) (r_info w)) old.
(** alphas(), betas(), left_eigenvectors(), right_eigenvectors(): only after success *)
Definition get {A} (field : eigsol -> A) (s : eigsol) : outcome A := assert_ (info_val s =? 0)%nat (Ok (field s)).

(** conj(VL)^T B VR *)
Definition inner (n : nat) (B : cmat) (L V : cmat) : cmat :=
  fun a b => csum n (fun i => csum n (fun j => Cmult (Cmult (Cconj (L i a)) (B i j)) (V j b))).
Definition scale_col (m : cmat) (k : nat) (c : C) : cmat := fun i j => if (j =? k)%nat then Cmult (m i j) c else m i j.
Definition real_mat (B : nat -> nat -> R) : cmat := fun i j => RtoC (B i j).
(** scale_eigenvectors_to_identity_innerproduct of LAPACK_DGGEV, lapack_dggev_interface.h L218-233 (and of LAPACK_DGEEV with the
    identity): the right eigenvectors are scaled *)
Fixpoint scale_right (n : nat) (r V : cmat) : cmat :=
  match n with O => V | S k => let V := scale_right k r V in if Rlt_dec 0 (Cmod (r k k)) then scale_col V k (Cinv (r k k)) else V end.
Definition scale_real (n : nat) (B : nat -> nat -> R) (s : eigsol) : outcome eigsol :=
  assert_ (info_val s =? 0)%nat
  (Ok (mkEs (alpha s) (beta s) (VL s) (scale_right n (inner n (real_mat B) (VL s) (VR s)) (VR s)) (info_val s))).
(** the same of LAPACK_ZGGEV_Base, lapack_zggev_base.h L84-111: the right ones are scaled to unit length, then the left ones by the
    inverse of the product *)
Definition col_norm (n : nat) (V : cmat) (k : nat) : R := sqrt (sum n (fun i => (fst (V i k))² + (snd (V i k))²)).
Fixpoint unit_right (k n : nat) (V : cmat) : outcome cmat :=
  match k with
  | O => Ok V
  | S k => V <- unit_right k n V ;;
      if Rlt_dec 0 (col_norm n V k) then Ok (scale_col V k (RtoC (/ col_norm n V k))) else Fault AssertFailed
  end.
Definition scale_complex (n : nat) (B : cmat) (s : eigsol) : outcome eigsol :=
  assert_ (info_val s =? 0)%nat
  (V <- unit_right n n (VR s) ;;
   Ok (mkEs (alpha s) (beta s) (scale_right n (inner n B (VL s) V) (VL s)) V (info_val s))).

(** The sizes handed to LAPACK: lwork, rwork, iwork (elements), bwork (bytes) and the leading dimensions.
    lapack_dggev_interface.cpp L52-53, lapack_dgeev_interface.cpp L46-47, lapack_zggev_interface.cpp L50-53,
    lapack_zggevx_interface.cpp L50-52, L83-87 (bool bwork[n]). *)
Record sizes : Type := mkSz { lwork : nat; rwork : nat; iwork : nat; bwork : nat; ld : nat }.
Definition size_dggev (n : nat) : sizes := mkSz (16 * n) 0 0 0 n.
Definition size_dgeev (n : nat) : sizes := mkSz (16 * n) 0 0 0 n.
Definition size_zggev (n : nat) : sizes := mkSz (16 * n) (8 * n) 0 0 n.
Definition size_zggevx (n : nat) : sizes := mkSz (4 * (n * n + n)) (8 * n) (n + 2) n n.

(** * SLEPc, /repo/src/solver/slepc_eigen_solver.cpp.  The pairs SLEPc has converged to are data. *)
Record eigpair : Type := mkEp { ep_value : C; ep_re : nat -> R; ep_im : nat -> R }.
(** get_eigenvalue, L37-50 *)
Definition get_eigenvalue (i : nat) (sol : nat -> eigpair) : C := ep_value (sol i).
(** get_eigenpair, L55-104; [herm]: HEP or GHEP; [im]: a vector for the imaginary part is given.  Its cast pointer v_im stays NULL
    (L76, L82) and is dereferenced (L86). *)
Definition get_eigenpair (herm im : bool) (i : nat) (sol : nat -> eigpair) : outcome (C * (nat -> R)) :=
  if herm && im then Fault AssertFailed
  else if im then Fault NullDeref
  else Ok (ep_value (sol i), ep_re (sol i)).
