(** Specification vocabulary for the optimiser interfaces. *)
From Coq Require Import List Arith Reals ZArith.
From Verif Require Import Base Opt_Model.
Import ListNotations.

(** The callback keeps the sizes of the buffers it is given (std::vector arguments are filled,
    not resized). *)
Definition keeps_sizes (E : evaluator) : Prop :=
  forall x og eg b, len (e_dobj (E x og eg b)) = len (e_dobj b) /\
                    len (e_f (E x og eg b)) = len (e_f b) /\
                    len (e_df (E x og eg b)) = len (e_df b).

(** Documented layout (function_evaluation.h L104-107): the derivative of constraint [i] with
    respect to variable [j] of a problem with [m] constraints is entry [j*m+i]. *)
Definition user_grad (m : nat) (b : ebuf) (i j : nat) : R := cell (e_df b) (j * m + i).

(** A point within the bounds on the variables. *)
Definition in_box (n : nat) (lo hi x : vec) : Prop :=
  forall i, (i < n)%nat -> (lo i <= x i <= hi i)%R.

(** The last [n] entries of a list. *)
Definition lastn {A} (n : nat) (l : list A) : list A := skipn (List.length l - n) l.

(** Agreement of a value with a reference: relative when the reference is positive and not tiny,
    absolute otherwise. *)
Definition agrees (geps c v : R) : Prop :=
  if Rlt_dec (sqrt geps) c then (Rabs (v - c) / Rabs c < geps)%R else (Rabs (v - c) < geps)%R.

(** Plain functions of a design. *)
Definition respects (n : nat) (f : vec -> R) : Prop :=
  forall v w, (forall k, (k < n)%nat -> v k = w k) -> f v = f w.

(** [E] computes the objective [f0] and the constraints [fc]; it writes gradients only on request,
    and then writes [g0] and [gc]. *)
Definition computes (E : evaluator) (n m : nat) (f0 : vec -> R) (fc : nat -> vec -> R)
  (g0 : vec -> nat -> R) (gc : nat -> vec -> nat -> R) : Prop :=
  keeps_sizes E /\
  (forall x og eg b, len x = n -> e_obj (E x og eg b) = f0 (cell x)) /\
  (forall x og eg b j, len x = n -> (j < m)%nat -> cell (e_f (E x og eg b)) j = fc j (cell x)) /\
  (forall x eg b i, len x = n -> (i < n)%nat -> cell (e_dobj (E x true eg b)) i = g0 (cell x) i) /\
  (forall x og b i j, len x = n -> (i < n)%nat -> (j < m)%nat ->
     cell (e_df (E x og (mkArr m (fun _ => true)) b)) (i * m + j) = gc j (cell x) i) /\
  (forall x eg b, e_dobj (E x false eg b) = e_dobj b) /\
  (forall x og b, e_df (E x og (mkArr m (fun _ => false)) b) = e_df b).

(** Central difference with half-width [d]. *)
Definition central (f : vec -> R) (x : vec) (i : nat) (d : R) : R :=
  ((f (upd x i (x i + d)) - f (upd x i (x i - d))) / (2 * d))%R.

(** A quadratic polynomial in [n] variables. *)
Definition quadratic (n : nat) (f : vec -> R) : Prop :=
  exists c b A, forall x, f x = (c + sum n (fun i => b i * x i) +
                                 sum n (fun i => sum n (fun j => A i j * x i * x j)))%R.

(** [g] is the partial derivative of [f] with respect to variable [i] at [x]. *)
Definition partial (f : vec -> R) (x : vec) (i : nat) (g : R) : Prop :=
  derivable_pt_lim (fun t => f (upd x i t)) (x i) g.

(** The states between outer iterations of a GCMMA run. *)
Inductive gcmma_reach (M : nat) (f0 : vec -> R) (fc : vec -> nat -> R)
  (mma : gstate -> nat -> list vec -> vec) (conser : gstate -> nat -> vec -> bool)
  (innmax max_iters nrel : nat) (geps : R) (bfuel : nat) (x0 : vec) : gstate -> Prop :=
| greach_init : gcmma_reach M f0 fc mma conser innmax max_iters nrel geps bfuel x0
                  (gcmma_init nrel x0)
| greach_step : forall g g' t,
    gcmma_reach M f0 fc mma conser innmax max_iters nrel geps bfuel x0 g ->
    outer M f0 fc mma conser innmax max_iters nrel geps bfuel g = Ok (g', t) ->
    gcmma_reach M f0 fc mma conser innmax max_iters nrel geps bfuel x0 g'.
