(** C209, C212: calls that are refused. *)
From Coq Require Import List Arith Bool Reals.
From Coquelicot Require Import Complex.
From Verif Require Import Base Lap_Model.
Import ListNotations.
Open Scope R_scope.

(** matrices that are not square, or of different sizes, are refused whatever they hold *)
Theorem C209_refused : forall n vecs w old, compute n false vecs w old = Fault AssertFailed /\ compute_standard n false vecs w old = Fault AssertFailed.
Proof. intros. split; reflexivity. Qed.
(** a Hermitian problem has no imaginary vector to fill *)
Theorem C212_refused : forall i sol, get_eigenpair true true i sol = Fault AssertFailed.
Proof. reflexivity. Qed.
Example C209_refused_example : exists w old s, compute 0 true true w old = Ok s /\ compute 0 false true w old = Fault AssertFailed.
Proof.
  exists (mkRaw (fun _ => 0) (fun _ => 0) (fun _ => 1) (fun _ _ => 0) (fun _ _ => 0) 0), (mkEs (fun _ => RtoC 0) (fun _ => 0) (fun _ _ => RtoC 0) (fun _ _ => RtoC 0) 0).
  eexists. split; reflexivity.
Qed.
Print Assumptions C209_refused.
Print Assumptions C212_refused.
