(** C225, continued: what the integrated pressure refuses. *)
From Coq Require Import List Arith Bool Reals Lra Lia.
From Verif Require Import Base RBool Prs_Model Prs_Spec Prs_Proofs.
Import ListNotations.
Open Scope R_scope.

(** no sensitivity was given for the parameter since the last clear: refused, in either mode *)
Theorem C225_unknown : forall o n w l w' f, pout_new o n = Ok w -> osteps w l = Ok w' -> last_sens f l = None ->
  osensitivity w' f = Fault AssertFailed.
Proof.
  intros o n w l w' f E H S. destruct (osteps_tidy o n w E l w' H) as (_ & _ & _ & D & _). specialize (D f). rewrite S in D.
  unfold osensitivity. destruct (find _ (po_sens w')) as [(g, u)|]; [discriminate|reflexivity].
Qed.
(** of a load that is zero, the derivative of the norm divides by zero for every unknown *)
Theorem C225_zero_derivative_refuted : forall o n w l w' j, pout_new o n = Ok w -> osteps w l = Ok w' -> last_load l = Some (0, 0, 0) ->
  last_mode o l = L2Norm -> oderivative w' j = Fault DivByZero.
Proof.
  intros o n w l w' j E H Lv Mo. destruct (osteps_tidy o n w E l w' H) as (A & _ & C & _ & _). unfold oderivative. rewrite A, C, Lv, Mo, len_size.
  assert (X : reqb (size3 (0, 0, 0)) 0 = true) by (apply reqb_true; now apply size_zero). now rewrite X.
Qed.
Example C225_unknown_example : exists w w', pout_new L2Norm (0, 0, 0) = Ok w /\
  osteps w [SetLoad (3, 0, 4); SetSens 0 (1, 0, 0); OClear; SetSens 1 (0, 1, 0)] = Ok w' /\
  last_sens 0 [SetLoad (3, 0, 4); SetSens 0 (1, 0, 0); OClear; SetSens 1 (0, 1, 0)] = None /\
  last_load [SetLoad (3, 0, 4); SetSens 0 (1, 0, 0); OClear; SetSens 1 (0, 1, 0)] = Some (0, 0, 0).
Proof. eexists _, _. repeat split; reflexivity. Qed.
Print Assumptions C225_unknown.
Print Assumptions C225_zero_derivative_refuted.
