(** Model of MAST::FEMOperatorMatrix, /repo/src/numerics/fem_operator_matrix.h.
    Simplification: pointers to RealVectorX are [option (arr R)] (None = nullptr); ownership of the
    pointed-to vectors (new/delete) is not modelled.  Template scalar type is R. *)
From Coq Require Import List Arith Reals Bool.
From Verif Require Import Base.
Import ListNotations.

(** fem_operator_matrix.h:105-128 (data members).  [blk] is _var_shape_functions. *)
Record femop : Type := mkFem {
  niv : nat;                        (* _n_interpolated_vars *)
  ndv : nat;                        (* _n_discrete_vars *)
  ndof : nat;                       (* _n_dofs_per_var *)
  blk : arr (option (arr R)) }.

(** fem_operator_matrix.h:50-52 *)
Definition fem_m (op : femop) : nat := niv op.
Definition fem_n (op : femop) : nat := ndv op * ndof op.

(** fem_operator_matrix.h:209-221, reinit(unsigned, unsigned, unsigned) *)
Definition fem_reinit (n_iv n_dv n_d : nat) : femop :=
  mkFem n_iv n_dv n_d (fill (n_iv * n_dv) None).

(** fem_operator_matrix.h:227-249 *)
Definition fem_set_shape_function (op : femop) (iv dv : nat) (sf : arr R) : outcome femop :=
  assert_ (negb (len (blk op) =? 0))
  (assert_ (iv <? niv op)
  (assert_ (dv <? ndv op)
  (_ <- get (blk op) (dv * niv op + iv) ;;
   b <- set (blk op) (dv * niv op + iv) (Some sf) ;;
   Ok (mkFem (niv op) (ndv op) (ndof op) b)))).

(** fem_operator_matrix.h:255-272, reinit(unsigned, const RealVectorX&).
    std::vector::resize value-initialises the pointers to nullptr. *)
Definition fem_reinit_shape (n_vars : nat) (sf : arr R) : outcome femop :=
  b <- loop n_vars (fun i b => set b (i * n_vars + i) (Some sf)) (fill (n_vars * n_vars) None) ;;
  Ok (mkFem n_vars n_vars (len sf) b).

(** fem_operator_matrix.h:279-296 *)
Definition fem_vector_mult (op : femop) (res v : arr R) : outcome (arr R) :=
  assert_ (len res =? niv op)
  (assert_ (len v =? fem_n op)
  (loop (niv op) (fun i res =>
     loop (ndv op) (fun j res =>
       p <- get (blk op) (j * niv op + i) ;;
       match p with
       | Some s => loop (ndof op) (fun k res =>
                     a <- get s k ;; b <- get v (j * ndof op + k) ;; vadd res i (a * b)%R) res
       | None => Ok res
       end) res) (fill (len res) 0%R))).

(** fem_operator_matrix.h:302-319 *)
Definition fem_vector_mult_transpose (op : femop) (res v : arr R) : outcome (arr R) :=
  assert_ (len res =? fem_n op)
  (assert_ (len v =? niv op)
  (loop (niv op) (fun i res =>
     loop (ndv op) (fun j res =>
       p <- get (blk op) (j * niv op + i) ;;
       match p with
       | Some s => loop (ndof op) (fun k res =>
                     a <- get s k ;; b <- get v i ;; vadd res (j * ndof op + k) (a * b)%R) res
       | None => Ok res
       end) res) (fill (len res) 0%R))).

(** fem_operator_matrix.h:326-346 *)
Definition fem_right_multiply (op : femop) (r m : mat R) : outcome (mat R) :=
  assert_ (rows r =? niv op)
  (assert_ (cols r =? cols m)
  (assert_ (rows m =? fem_n op)
  (loop (niv op) (fun i r =>
     loop (ndv op) (fun j r =>
       p <- get (blk op) (j * niv op + i) ;;
       match p with
       | Some s => loop (cols m) (fun l r =>
                     loop (ndof op) (fun k r =>
                       a <- get s k ;; b <- mget m (j * ndof op + k) l ;; madd r i l (a * b)%R) r) r
       | None => Ok r
       end) r) (mfill (rows r) (cols r) 0%R)))).

(** fem_operator_matrix.h:354-374 *)
Definition fem_right_multiply_transpose (op : femop) (r m : mat R) : outcome (mat R) :=
  assert_ (rows r =? fem_n op)
  (assert_ (cols r =? cols m)
  (assert_ (rows m =? niv op)
  (loop (niv op) (fun i r =>
     loop (ndv op) (fun j r =>
       p <- get (blk op) (j * niv op + i) ;;
       match p with
       | Some s => loop (cols m) (fun l r =>
                     loop (ndof op) (fun k r =>
                       a <- get s k ;; b <- mget m i l ;; madd r (j * ndof op + k) l (a * b)%R) r) r
       | None => Ok r
       end) r) (mfill (rows r) (cols r) 0%R)))).

(** fem_operator_matrix.h:381-406; note that the inner loops run over n1.size(), n2.size() *)
Definition fem_right_multiply_transpose_op (op : femop) (r : mat R) (m : femop) : outcome (mat R) :=
  assert_ (rows r =? fem_n op)
  (assert_ (cols r =? fem_n m)
  (assert_ (niv op =? niv m)
  (loop (ndv op) (fun i r =>
     loop (ndv m) (fun j r =>
       loop (niv op) (fun k r =>
         p1 <- get (blk op) (i * niv op + k) ;;
         match p1 with
         | None => Ok r      (* && short-circuits *)
         | Some n1 =>
           p2 <- get (blk m) (j * niv m + k) ;;
           match p2 with
           | None => Ok r
           | Some n2 =>
             loop (len n1) (fun i1 r =>
               loop (len n2) (fun i2 r =>
                 a <- get n1 i1 ;; b <- get n2 i2 ;;
                 madd r (i * ndof op + i1) (j * ndof m + i2) (a * b)%R) r) r
           end
         end) r) r) (mfill (rows r) (cols r) 0%R)))).

(** fem_operator_matrix.h:414-434 *)
Definition fem_left_multiply (op : femop) (r m : mat R) : outcome (mat R) :=
  assert_ (rows r =? rows m)
  (assert_ (cols r =? fem_n op)
  (assert_ (cols m =? niv op)
  (loop (niv op) (fun i r =>
     loop (ndv op) (fun j r =>
       p <- get (blk op) (j * niv op + i) ;;
       match p with
       | Some s => loop (rows m) (fun l r =>
                     loop (ndof op) (fun k r =>
                       a <- get s k ;; b <- mget m l i ;; madd r l (j * ndof op + k) (a * b)%R) r) r
       | None => Ok r
       end) r) (mfill (rows r) (cols r) 0%R)))).

(** fem_operator_matrix.h:441-461 *)
Definition fem_left_multiply_transpose (op : femop) (r m : mat R) : outcome (mat R) :=
  assert_ (rows r =? rows m)
  (assert_ (cols r =? niv op)
  (assert_ (cols m =? fem_n op)
  (loop (niv op) (fun i r =>
     loop (ndv op) (fun j r =>
       p <- get (blk op) (j * niv op + i) ;;
       match p with
       | Some s => loop (rows m) (fun l r =>
                     loop (ndof op) (fun k r =>
                       a <- get s k ;; b <- mget m l (j * ndof op + k) ;; madd r l i (a * b)%R) r) r
       | None => Ok r
       end) r) (mfill (rows r) (cols r) 0%R)))).

(** A client's use: reinit followed by a sequence of set_shape_function calls
    (interpolated variable, discrete variable, values). *)
Definition fem_build (n_iv n_dv n_d : nat) (h : list (nat * nat * arr R)) : outcome femop :=
  fold_left (fun o c => op <- o ;; fem_set_shape_function op (fst (fst c)) (snd (fst c)) (snd c))
            h (Ok (fem_reinit n_iv n_dv n_d)).
