(** Boolean comparisons of reals, standing for the C++ operators <, <=, == on Real. *)
From Coq Require Import Reals Lra Bool.
Open Scope R_scope.

Definition rltb (a b : R) : bool := if Rlt_dec a b then true else false.
Definition rleb (a b : R) : bool := if Rle_dec a b then true else false.
Definition reqb (a b : R) : bool := if Req_EM_T a b then true else false.

Lemma rltb_true a b : rltb a b = true <-> a < b.
Proof. unfold rltb; destruct (Rlt_dec a b); split; intros; auto; discriminate. Qed.
Lemma rltb_false a b : rltb a b = false <-> b <= a.
Proof. unfold rltb; destruct (Rlt_dec a b); split; intros; auto; try discriminate; lra. Qed.
Lemma rleb_true a b : rleb a b = true <-> a <= b.
Proof. unfold rleb; destruct (Rle_dec a b); split; intros; auto; discriminate. Qed.
Lemma rleb_false a b : rleb a b = false <-> b < a.
Proof. unfold rleb; destruct (Rle_dec a b); split; intros; auto; try discriminate; lra. Qed.
Lemma reqb_true a b : reqb a b = true <-> a = b.
Proof. unfold reqb; destruct (Req_EM_T a b); split; intros; auto; try discriminate; lra. Qed.
Lemma reqb_false a b : reqb a b = false <-> a <> b.
Proof. unfold reqb; destruct (Req_EM_T a b); split; intros; auto; try discriminate; congruence. Qed.

(** Decide every comparison in the goal, keeping the facts. *)
Ltac rb :=
  repeat match goal with
  | |- context [rltb ?a ?b] =>
      let E := fresh "E" in destruct (rltb a b) eqn:E; [apply rltb_true in E|apply rltb_false in E]
  | |- context [rleb ?a ?b] =>
      let E := fresh "E" in destruct (rleb a b) eqn:E; [apply rleb_true in E|apply rleb_false in E]
  | |- context [reqb ?a ?b] =>
      let E := fresh "E" in destruct (reqb a b) eqn:E; [apply reqb_true in E|apply reqb_false in E]
  end.
(** Same for a hypothesis. *)
Ltac rbh H :=
  repeat match type of H with
  | context [rltb ?a ?b] =>
      let E := fresh "E" in destruct (rltb a b) eqn:E; [apply rltb_true in E|apply rltb_false in E]
  | context [rleb ?a ?b] =>
      let E := fresh "E" in destruct (rleb a b) eqn:E; [apply rleb_true in E|apply rleb_false in E]
  | context [reqb ?a ?b] =>
      let E := fresh "E" in destruct (reqb a b) eqn:E; [apply reqb_true in E|apply reqb_false in E]
  end.
