(** Model of /repo/src/numerics/utility.h.  Complex numbers are pairs of reals. *)
From Coq Require Import List Arith Reals Bool.
From Verif Require Import Base.
Import ListNotations.

Definition cplx : Type := (R * R)%type.

(** utility.h:49-57, transform_to_elem_vector (complex) *)
Definition transform_to_elem_vector (v : arr cplx) (v_real : arr R) : outcome (arr cplx) :=
  let n := len v in
  assert_ (len v_real =? 2 * n)
  (loop n (fun i v =>
     a <- get v_real i ;; b <- get v_real (i + n) ;; set v i (a, b)) v).

(** utility.h:76-88, transform_to_elem_matrix (complex) *)
Definition transform_to_elem_matrix (m : mat cplx) (m_real : mat R) : outcome (mat cplx) :=
  let mm := rows m in let nn := cols m in
  assert_ (rows m_real =? 2 * mm)
  (assert_ (cols m_real =? 2 * nn)
  (loop mm (fun i m => loop nn (fun j m =>
     a <- mget m_real i j ;; b <- mget m_real i (j + nn) ;; mset m i j (a, (- b)%R)) m) m)).

(** utility.h:130-148, add_to_assembled_matrix (complex) *)
Definition add_to_assembled_matrix (assembled : mat R) (e : mat cplx) : outcome (mat R) :=
  let m := rows e in let n := cols e in
  assert_ (rows assembled =? m * 2)
  (assert_ (cols assembled =? n * 2)
  (loop m (fun i s => loop n (fun j s =>
     x <- mget e i j ;;
     s <- madd s i j (fst x) ;;
     s <- madd s (i + m) (j + n) (fst x) ;;
     s <- madd s i (j + n) (- snd x)%R ;;
     madd s (i + m) j (snd x)) s) assembled)).

(** utility.h:151-164, add_to_assembled_vector (complex) *)
Definition add_to_assembled_vector (assembled : arr R) (e : arr cplx) : outcome (arr R) :=
  let n := len e in
  assert_ (len assembled =? n * 2)
  (loop n (fun i s =>
     x <- get e i ;; s <- vadd s i (fst x) ;; vadd s (i + n) (snd x)) assembled).

(** utility.h:121-126, 115-119: the real overloads (Eigen +=, sizes checked by Eigen's assertion) *)
Definition add_to_assembled_matrix_real (assembled e : mat R) : outcome (mat R) :=
  assert_ ((rows assembled =? rows e) && (cols assembled =? cols e))
    (Ok (mkMat (rows e) (cols e) (fun i j => (ent assembled i j + ent e i j)%R))).

(** utility.h:214-254, parallel_sum, both overloads.  [flatten]: L222-225. *)
Definition flatten {A} (zero : A) (m : mat A) : outcome (arr A) :=
  loop (rows m) (fun i v => loop (cols m) (fun j v =>
    x <- mget m i j ;; set v (rows m * j + i) x) v) (fill (rows m * cols m) zero).

(** L229-231 *)
Definition unflatten {A} (m : mat A) (v : arr A) : outcome (mat A) :=
  loop (rows m) (fun i s => loop (cols m) (fun j s =>
    x <- get v (rows m * j + i) ;; mset s i j x) s) m.

(** c.sum(vals): MPI_Allreduce(MPI_SUM) on the vectors of all ranks; different sizes on the ranks is an
    MPI error.  The communication itself (non-blocking ranks, failures) is not modelled. *)
Definition comm_sum {A} (plus : A -> A -> A) (zero : A) (vs : list (arr A)) : outcome (arr A) :=
  match vs with
  | [] => Fault LibError
  | v0 :: _ =>
    if forallb (fun v => len v =? len v0) vs
    then Ok (mkArr (len v0) (fun k => fold_right plus zero (map (fun v => cell v k) vs)))
    else Fault LibError
  end.

Fixpoint map_outcome {A B} (f : A -> outcome B) (l : list A) : outcome (list B) :=
  match l with
  | [] => Ok []
  | x :: t => y <- f x ;; ys <- map_outcome f t ;; Ok (y :: ys)
  end.

(** one collective call: the list holds the argument of each rank *)
Definition parallel_sum {A} (plus : A -> A -> A) (zero : A) (ranks : list (mat A))
  : outcome (list (mat A)) :=
  vs <- map_outcome (flatten zero) ranks ;;
  s <- comm_sum plus zero vs ;;
  map_outcome (fun m => unflatten m s) ranks.
