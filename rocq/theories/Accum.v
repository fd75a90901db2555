(** Compositional reasoning about loops that only add to the entries of an array or matrix. *)
From Coq Require Import List Arith Lia Reals Lra Bool.
From Verif Require Import Base BaseLemmas.
Open Scope R_scope.

Definition adds (L : nat) (f : arr R -> outcome (arr R)) (D : nat -> R) : Prop :=
  forall s, len s = L -> exists s', f s = Ok s' /\ len s' = L /\
    forall i, (i < L)%nat -> cell s' i = cell s i + D i.

Definition madds (r c : nat) (f : mat R -> outcome (mat R)) (D : nat -> nat -> R) : Prop :=
  forall s, rows s = r -> cols s = c -> exists s', f s = Ok s' /\ rows s' = r /\ cols s' = c /\
    forall i j, (i < r)%nat -> (j < c)%nat -> ent s' i j = ent s i j + D i j.

Lemma adds_ext L f D E : adds L f D -> (forall i, (i < L)%nat -> D i = E i) -> adds L f E.
Proof.
  intros H HE s Hs. destruct (H s Hs) as (s' & A & B & C).
  exists s'; repeat split; auto. intros i Hi. rewrite <- HE by auto. auto.
Qed.
Lemma adds_ret L : adds L (fun s => Ok s) (fun _ => 0).
Proof. intros s Hs; exists s; repeat split; auto; intros; lra. Qed.
Lemma adds_vadd L i x : (i < L)%nat -> adds L (fun s => vadd s i x) (fun a => if a =? i then x else 0).
Proof.
  intros Hi s Hs. rewrite vadd_ok by lia. eexists; split; [reflexivity|]; simpl; split; auto.
  intros a Ha; unfold upd; destruct (Nat.eqb_spec a i); subst; lra.
Qed.
Lemma adds_bind L f g D E : adds L f D -> adds L g E ->
  adds L (fun s => bind (f s) g) (fun i => D i + E i).
Proof.
  intros Hf Hg s Hs. destruct (Hf s Hs) as (s1 & A1 & B1 & C1). rewrite A1; simpl.
  destruct (Hg s1 B1) as (s2 & A2 & B2 & C2). exists s2; repeat split; auto.
  intros i Hi; rewrite C2, C1 by auto; lra.
Qed.
Lemma adds_loop L n body D : (forall k, (k < n)%nat -> adds L (body k) (D k)) ->
  adds L (loop n body) (fun i => sum n (fun k => D k i)).
Proof.
  induction n as [|n IH]; intros H.
  - simpl. apply adds_ret.
  - simpl. apply (adds_bind L (loop n body) (body n)).
    + apply IH; intros; apply H; lia.
    + apply H; lia.
Qed.
(** reading a value that is in bounds does not disturb the accumulation *)
Lemma adds_get L {A} (v : arr A) i f D :
  (i < len v)%nat -> adds L (f (cell v i)) D ->
  adds L (fun s => bind (get v i) (fun x => f x s)) D.
Proof. intros Hi H s Hs. rewrite get_ok by auto; simpl; now apply H. Qed.
Lemma adds_mget L {A} (m : mat A) i j f D :
  (i < rows m)%nat -> (j < cols m)%nat -> adds L (f (ent m i j)) D ->
  adds L (fun s => bind (mget m i j) (fun x => f x s)) D.
Proof. intros Hi Hj H s Hs. rewrite mget_ok by auto; simpl; now apply H. Qed.

Lemma madds_ext r c f D E : madds r c f D ->
  (forall i j, (i < r)%nat -> (j < c)%nat -> D i j = E i j) -> madds r c f E.
Proof.
  intros H HE s H1 H2. destruct (H s H1 H2) as (s' & A & B & B' & C).
  exists s'; repeat split; auto. intros i j Hi Hj. rewrite <- HE by auto. auto.
Qed.
Lemma madds_ret r c : madds r c (fun s => Ok s) (fun _ _ => 0).
Proof. intros s H1 H2; exists s; repeat split; auto; intros; lra. Qed.
Lemma madds_madd r c i j x : (i < r)%nat -> (j < c)%nat ->
  madds r c (fun s => madd s i j x) (fun a b => if (a =? i) && (b =? j) then x else 0).
Proof.
  intros Hi Hj s H1 H2. rewrite madd_ok by lia. eexists; split; [reflexivity|]; simpl.
  repeat split; auto.
  intros a b Ha Hb; unfold upd2; destruct (Nat.eqb_spec a i), (Nat.eqb_spec b j); subst; simpl; lra.
Qed.
Lemma madds_bind r c f g D E : madds r c f D -> madds r c g E ->
  madds r c (fun s => bind (f s) g) (fun i j => D i j + E i j).
Proof.
  intros Hf Hg s H1 H2. destruct (Hf s H1 H2) as (s1 & A1 & B1 & B1' & C1). rewrite A1; simpl.
  destruct (Hg s1 B1 B1') as (s2 & A2 & B2 & B2' & C2). exists s2; repeat split; auto.
  intros i j Hi Hj; rewrite C2, C1 by auto; lra.
Qed.
Lemma madds_loop r c n body D : (forall k, (k < n)%nat -> madds r c (body k) (D k)) ->
  madds r c (loop n body) (fun i j => sum n (fun k => D k i j)).
Proof.
  induction n as [|n IH]; intros H.
  - simpl. apply madds_ret.
  - simpl. apply (madds_bind r c (loop n body) (body n)).
    + apply IH; intros; apply H; lia.
    + apply H; lia.
Qed.
Lemma madds_get r c {A} (v : arr A) i f D :
  (i < len v)%nat -> madds r c (f (cell v i)) D ->
  madds r c (fun s => bind (get v i) (fun x => f x s)) D.
Proof. intros Hi H s H1 H2. rewrite get_ok by auto; simpl; now apply H. Qed.
Lemma madds_mget r c {A} (m : mat A) i j f D :
  (i < rows m)%nat -> (j < cols m)%nat -> madds r c (f (ent m i j)) D ->
  madds r c (fun s => bind (mget m i j) (fun x => f x s)) D.
Proof. intros Hi Hj H s H1 H2. rewrite mget_ok by auto; simpl; now apply H. Qed.
