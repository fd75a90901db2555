(** Proofs about the material cards: temperature. *)
From Coquelicot Require Import Coquelicot.
From Coq Require Import List Arith Bool Reals Lra Lia.
From Verif Require Import Base RBool Mat_Model Mat_Spec Mat_Proofs Mat_Proofs2.
Import ListNotations.
Open Scope R_scope.

Definition ext6 (H : vec -> vec -> Prop) : Prop :=
  forall e e' s s', (forall i, (i < 6)%nat -> e i = e' i) -> (forall i, (i < 6)%nat -> s i = s' i) -> H e s -> H e' s'.
Lemma iso_ext6 v : ext6 (hooke_iso v).
Proof. intros e e' s s' A B. unfold hooke_iso. rewrite <- !A, <- !B by lia. auto. Qed.
Lemma ort_ext6 v : ext6 (hooke_ort v).
Proof. intros e e' s s' A B. unfold hooke_ort. rewrite <- !A, <- !B by lia. auto. Qed.
Lemma heated_applies C a n T e s : heated_matrices C a n T e s <-> applies C n (fun j => e j - ent a j 0%nat * T) s.
Proof.
  unfold heated_matrices, applies.
  assert (Q : forall i, sum n (fun j => ent C i j * (e j - ent a j 0%nat * T)) = sum n (fun j => ent C i j * e j) - sum n (fun j => ent C i j * ent a j 0%nat) * T).
  { intros i. induction n; cbn; [lra|]. rewrite IHn. ring. }
  split; intros H i Hi; specialize (H i Hi); rewrite H, Q; reflexivity.
Qed.
(** The law of the heated body, for the kinds that leave the strains along 33 and 22 free or do not constrain them. *)
Lemma heated_law k hooke free (a : vec) T e s : ext6 hooke ->
  (forall i, (3 <= i)%nat -> free i = 0) ->
  match k with
  | KStiff3 => forall i, (i < 6)%nat -> a i = free i
  | KStiff2 true => a 0%nat = free 0%nat /\ a 1%nat = free 1%nat /\ a 2%nat = 0
  | KStiff1 => a 0%nat = free 0%nat /\ a 1%nat = 0
  | _ => False
  end ->
  law_of k hooke (fun j => e j - a j * T) s <-> law_of k (heated hooke free T) e s.
Proof.
  intros X F. destruct k as [|[|]| | | | | |]; try contradiction.
  - intros [A1 A2]. cbn [law_of]. unfold heated. split.
    + intros (p & q & h). exists (p + free 1%nat * T), (q + free 2%nat * T). revert h. apply X; auto.
      intros i Hi. idx6 i; cbn [bar]; rewrite ?A1, ?A2, ?(F 3%nat), ?(F 4%nat), ?(F 5%nat) by lia; ring.
    + intros (p & q & h). exists (p - free 1%nat * T), (q - free 2%nat * T). revert h. apply X; auto.
      intros i Hi. idx6 i; cbn [bar]; rewrite ?A1, ?A2, ?(F 3%nat), ?(F 4%nat), ?(F 5%nat) by lia; ring.
  - intros (A1 & A2 & A3). cbn [law_of]. unfold heated. split.
    + intros (q & h). exists (q + free 2%nat * T). revert h. apply X; auto.
      intros i Hi. idx6 i; cbn [plane]; rewrite ?A1, ?A2, ?A3, ?(F 3%nat), ?(F 4%nat), ?(F 5%nat) by lia; ring.
    + intros (q & h). exists (q - free 2%nat * T). revert h. apply X; auto.
      intros i Hi. idx6 i; cbn [plane]; rewrite ?A1, ?A2, ?A3, ?(F 3%nat), ?(F 4%nat), ?(F 5%nat) by lia; ring.
  - intros A. cbn [law_of]. unfold heated. split; apply X; auto; intros i Hi; rewrite A by auto; reflexivity.
Qed.
