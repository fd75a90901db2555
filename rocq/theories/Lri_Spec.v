(** What a step of reinitialization is expected to solve. *)
From Coq Require Import Reals.
From Coquelicot Require Import Coquelicot.
From Coq Require Import List Arith Bool Permutation.
From Verif Require Import Base Sens_Model Sens_Spec Mph_Model Mph_Spec Lri_Model.
Import ListNotations.
Open Scope R_scope.

Definition reinit_elems (S : rsys) : list relem := concat (r_ranks S).
Definition reinit_ok (S : rsys) : Prop :=
  (forall e d, In e (reinit_elems S) -> In d (rdofs e) -> (d < n (r_cons S))%nat) /\
  (forall d r j c, row (r_cons S) d = Some r -> In (j, c) r -> (j < n (r_cons S))%nat /\ row (r_cons S) j = None).
(** the equations of the step, the level set before the reinitialization being [ref] *)
Definition reinit_equations (S : rsys) (th : params) (ref : vec) (prev : quants) (X : vec) (i : nat) : R :=
  total (fun e => part (r_cons S) (rdofs e)
                    (r_res e th (gather (rdofs e) ref) (step_state (r_scheme S) prev (rdofs e) (gather (rdofs e) X))) i) (reinit_elems S).
(** an element's Jacobian is the derivative of its residual with respect to the unknowns of the step, the reference being held *)
Definition reinit_jacobian (th : params) (sc : scheme) (ref : vec) (prev : quants) (e : relem) (x : vec) : Prop :=
  forall (p : R -> vec) (dp : vec),
    (forall k, (k < length (rdofs e))%nat -> p 0 k = x k) ->
    (forall k, (k < length (rdofs e))%nat -> is_derive (fun t => p t k) 0 (dp k)) ->
    forall k, (k < length (rdofs e))%nat ->
      is_derive (fun t => r_res e th (gather (rdofs e) ref) (step_state sc prev (rdofs e) (p t)) k) 0
        (sum (length (rdofs e)) (fun l => r_jac e th (gather (rdofs e) ref) (step_state sc prev (rdofs e) x) k l * dp l)).
(** a list of calls that only writes vectors, and what it leaves in them *)
Definition writes (l : list (nat * vec)) : list rcall := map (fun p => RWrite (fst p) (snd p)) l.
Fixpoint written (l : list (nat * vec)) (a : nat) (v : vec) : vec :=
  match l with [] => v | (b, w) :: t => written t a (if (a =? b)%nat then w else v) end.
(** the assertion about the propagation mode does not stop the assembly *)
Definition may (checked : bool) (S : rsys) : Prop := checked = true -> r_prop S = true -> reinit_elems S = [].
