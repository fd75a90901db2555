(** C226: the state of a new or cleared object. *)
From Coq Require Import List Reals.
From Verif Require Import Base Bck_Model.
Import ListNotations.
Open Scope R_scope.

(** A new object, and one that was cleared, stand for the linearised form at no load: every eigenvalue is read as no load, and none is refused. *)
Theorem C226_fresh : forall l v, critical_estimate (bcalls []) v = Ok 0 /\ critical_estimate (bcalls (l ++ [BReset])) v = Ok 0.
Proof.
  intros l v. assert (H : critical_estimate bset0 v = Ok 0) by (unfold critical_estimate; cbn [bset0 bs_lin bs_l1 bs_l2]; f_equal; ring).
  split; [exact H|]. unfold bcalls. rewrite fold_left_app. exact H.
Qed.
(** a case with data before *)
Example C226_fresh_witness : critical_estimate (bcalls [BData false 1 2 (fun _ => 0) (fun _ => 1); BReset]) (-1) = Ok 0.
Proof. exact (proj2 (C226_fresh [BData false 1 2 (fun _ => 0) (fun _ => 1)] (-1))). Qed.
(** The sensitivity asks for that of the base solution. *)
Theorem C228_refused : forall checked C th held load X f es MB v z, beig_sens checked C th held load (Some X) None f es MB v z = Fault AssertFailed.
Proof. reflexivity. Qed.
Print Assumptions C226_fresh.
Print Assumptions C228_refused.
