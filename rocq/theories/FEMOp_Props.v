(** C01-C03: the sparse-by-block interpolation operator acts as the dense matrix described by the
    set_shape_function calls.  Model: FEMOp_Model; specification: FEMOp_Spec. *)
From Coq Require Import List Arith Lia Reals Lra Bool.
From Verif Require Import Base BaseLemmas FEMOp_Model FEMOp_Spec FEMOp_Proofs.
Import ListNotations.
Open Scope R_scope.

(** C01: after any valid sequence of set_shape_function calls, vector_mult writes (dense matrix) * v
    into the result, whatever the result vector held before, without any out-of-bounds access. *)
Theorem C01_vector_mult : forall n_iv n_dv nd h, valid_calls n_iv n_dv nd h ->
  exists op, fem_build n_iv n_dv nd h = Ok op /\
  forall res v, len res = n_iv -> len v = (n_dv * nd)%nat ->
  exists r, fem_vector_mult op res v = Ok r /\ len r = n_iv /\
    forall i, (i < n_iv)%nat -> cell r i = mv (n_dv * nd) (dense nd h) (cell v) i.
Proof.
  intros n_iv n_dv nd h Hv. destruct (build_rep _ _ _ _ Hv) as (op & E & Hr).
  exists op; split; auto. intros; now apply vector_mult_ok.
Qed.
Print Assumptions C01_vector_mult.

(** C01, for the operator set up by reinit(n_vars, shape): every variable is interpolated with the
    same shape function and there is no coupling. *)
Theorem C01_vector_mult_same_shape : forall n s,
  exists op, fem_reinit_shape n s = Ok op /\
  forall res v, len res = n -> len v = (n * len s)%nat ->
  exists r, fem_vector_mult op res v = Ok r /\ len r = n /\
    forall i, (i < n)%nat -> cell r i = sum (len s) (fun k => cell s k * cell v (i * len s + k)%nat).
Proof.
  intros n s. destruct (reinit_shape_rep n s) as (op & E & Hr).
  exists op; split; auto. intros res v H1 H2.
  destruct (vector_mult_ok _ _ _ _ _ Hr (reinit_shape_valid n s) res v H1 H2) as (r & A & B & C).
  exists r; repeat split; auto. intros i Hi. rewrite C by auto.
  apply same_shape_dense; auto.
Qed.
Print Assumptions C01_vector_mult_same_shape.

(** C02: vector_mult_transpose is the adjoint of vector_mult: for every pair of vectors the two inner
    products agree. *)
Theorem C02_adjoint : forall n_iv n_dv nd h, valid_calls n_iv n_dv nd h ->
  exists op, fem_build n_iv n_dv nd h = Ok op /\
  forall res1 res2 x y,
    len res1 = n_iv -> len res2 = (n_dv * nd)%nat -> len x = (n_dv * nd)%nat -> len y = n_iv ->
  exists r1 r2, fem_vector_mult op res1 x = Ok r1 /\ fem_vector_mult_transpose op res2 y = Ok r2 /\
    len r1 = n_iv /\ len r2 = (n_dv * nd)%nat /\
    dot n_iv (cell r1) (cell y) = dot (n_dv * nd) (cell x) (cell r2).
Proof.
  intros n_iv n_dv nd h Hv. destruct (build_rep _ _ _ _ Hv) as (op & E & Hr).
  exists op; split; auto. intros res1 res2 x y L1 L2 L3 L4.
  exact (adjoint_ok op n_iv n_dv nd h Hr Hv res1 res2 x y L1 L2 L3 L4).
Qed.
Print Assumptions C02_adjoint.

(** C02, entry by entry *)
Theorem C02_vector_mult_transpose : forall n_iv n_dv nd h, valid_calls n_iv n_dv nd h ->
  exists op, fem_build n_iv n_dv nd h = Ok op /\
  forall res v, len res = (n_dv * nd)%nat -> len v = n_iv ->
  exists r, fem_vector_mult_transpose op res v = Ok r /\ len r = (n_dv * nd)%nat /\
    forall c, (c < n_dv * nd)%nat -> cell r c = mv n_iv (transpose (dense nd h)) (cell v) c.
Proof.
  intros n_iv n_dv nd h Hv. destruct (build_rep _ _ _ _ Hv) as (op & E & Hr).
  exists op; split; auto. intros; now apply vector_mult_transpose_ok.
Qed.
Print Assumptions C02_vector_mult_transpose.

(** C03: the four products with a dense matrix. *)
Theorem C03_matrix_products : forall n_iv n_dv nd h, valid_calls n_iv n_dv nd h ->
  exists op, fem_build n_iv n_dv nd h = Ok op /\
  (* R = N M *)
  (forall r m, rows r = n_iv -> cols r = cols m -> rows m = (n_dv * nd)%nat ->
   exists q, fem_right_multiply op r m = Ok q /\ rows q = n_iv /\ cols q = cols m /\
     forall a b, (a < n_iv)%nat -> (b < cols m)%nat -> ent q a b = mm (n_dv * nd) (dense nd h) (ent m) a b) /\
  (* R = N^T M *)
  (forall r m, rows r = (n_dv * nd)%nat -> cols r = cols m -> rows m = n_iv ->
   exists q, fem_right_multiply_transpose op r m = Ok q /\ rows q = (n_dv * nd)%nat /\ cols q = cols m /\
     forall a b, (a < n_dv * nd)%nat -> (b < cols m)%nat ->
       ent q a b = mm n_iv (transpose (dense nd h)) (ent m) a b) /\
  (* R = M N *)
  (forall r m, rows r = rows m -> cols r = (n_dv * nd)%nat -> cols m = n_iv ->
   exists q, fem_left_multiply op r m = Ok q /\ rows q = rows m /\ cols q = (n_dv * nd)%nat /\
     forall a b, (a < rows m)%nat -> (b < n_dv * nd)%nat -> ent q a b = mm n_iv (ent m) (dense nd h) a b) /\
  (* R = M N^T *)
  (forall r m, rows r = rows m -> cols r = n_iv -> cols m = (n_dv * nd)%nat ->
   exists q, fem_left_multiply_transpose op r m = Ok q /\ rows q = rows m /\ cols q = n_iv /\
     forall a b, (a < rows m)%nat -> (b < n_iv)%nat ->
       ent q a b = mm (n_dv * nd) (ent m) (transpose (dense nd h)) a b).
Proof.
  intros n_iv n_dv nd h Hv. destruct (build_rep _ _ _ _ Hv) as (op & E & Hr).
  exists op; split; auto. repeat split; intros.
  - now apply right_multiply_ok.
  - now apply right_multiply_transpose_ok.
  - now apply left_multiply_ok.
  - now apply left_multiply_transpose_ok.
Qed.
Print Assumptions C03_matrix_products.

(** C03: N1^T N2 for two operators that interpolate the same number of variables (this is how mass and
    stiffness blocks are formed). *)
Theorem C03_operator_product : forall n_iv n_dv nd h n_dv2 nd2 h2,
  valid_calls n_iv n_dv nd h -> valid_calls n_iv n_dv2 nd2 h2 ->
  exists op op2, fem_build n_iv n_dv nd h = Ok op /\ fem_build n_iv n_dv2 nd2 h2 = Ok op2 /\
  forall r, rows r = (n_dv * nd)%nat -> cols r = (n_dv2 * nd2)%nat ->
  exists q, fem_right_multiply_transpose_op op r op2 = Ok q /\
    rows q = (n_dv * nd)%nat /\ cols q = (n_dv2 * nd2)%nat /\
    forall a b, (a < n_dv * nd)%nat -> (b < n_dv2 * nd2)%nat ->
      ent q a b = mm n_iv (transpose (dense nd h)) (dense nd2 h2) a b.
Proof.
  intros n_iv n_dv nd h n_dv2 nd2 h2 H1 H2.
  destruct (build_rep _ _ _ _ H1) as (op & E & Hr). destruct (build_rep _ _ _ _ H2) as (op2 & E2 & Hr2).
  exists op, op2; repeat split; auto. intros. now apply right_multiply_transpose_op_ok with (n_iv := n_iv).
Qed.
Print Assumptions C03_operator_product.

(** Finding: set_shape_function accepts a vector with fewer values than n_dofs_per_var, and the next
    product then reads past its end. *)
Theorem C01_short_shape_unchecked : exists op s,
  fem_build 1 1 2 [(0%nat, 0%nat, s)] = Ok op /\
  fem_vector_mult op (fill 1 0) (fill 2 0) = Fault OutOfBounds.
Proof. exact short_shape. Qed.
Print Assumptions C01_short_shape_unchecked.

(** Finding: with a vector that has more values than n_dofs_per_var, the operator product writes the
    surplus into the rows of the next variable. *)
Theorem C03_long_shape_spills : exists op s q,
  fem_build 1 2 1 [(0%nat, 0%nat, s)] = Ok op /\
  fem_right_multiply_transpose_op op (mfill 2 2 0) op = Ok q /\
  ent q 1%nat 1%nat <> 0.
Proof. exact long_shape. Qed.
Print Assumptions C03_long_shape_spills.

(** The hypotheses are satisfiable: a 2x(2*3) operator with one block overwritten, one left zero. *)
Definition C01_example_calls : list (nat * nat * arr R) :=
  [(0%nat, 0%nat, mkArr 3 INR); (1%nat, 1%nat, fill 3 1); (0%nat, 0%nat, fill 3 2)].
Example C01_nonvacuous :
  valid_calls 2 2 3 C01_example_calls /\
  dense 3 C01_example_calls 0 1 = 2 /\ dense 3 C01_example_calls 0 4 = 0.
Proof. repeat split; repeat constructor; simpl; auto; lia. Qed.
