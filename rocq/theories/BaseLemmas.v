(** Lemmas about [Base]. *)
From Coq Require Import List Arith Lia Reals Lra Permutation Bool.
From Verif Require Import Base.
Import ListNotations.

Lemma loop_inv {S : Type} (I : nat -> S -> Prop) n body (s : S) :
  I 0 s ->
  (forall k s, k < n -> I k s -> exists s', body k s = Ok s' /\ I (Datatypes.S k) s') ->
  exists s', loop n body s = Ok s' /\ I n s'.
Proof.
  intros H0; induction n as [|n IH]; intros Hb; simpl.
  - eauto.
  - destruct IH as (s1 & E1 & I1); [intros; apply Hb; auto; lia|].
    rewrite E1; simpl. apply Hb; auto.
Qed.

Lemma loop_ext {S : Type} n (b1 b2 : nat -> S -> outcome S) s :
  (forall k s, k < n -> b1 k s = b2 k s) -> loop n b1 s = loop n b2 s.
Proof.
  induction n as [|n IH]; intros H; simpl; auto.
  rewrite IH by (intros; apply H; lia).
  destruct (loop n b2 s); simpl; auto.
Qed.

Lemma get_ok {A} (v : arr A) i : i < len v -> get v i = Ok (cell v i).
Proof. intros H; unfold get; apply Nat.ltb_lt in H; now rewrite H. Qed.
Lemma set_ok {A} (v : arr A) i x : i < len v -> set v i x = Ok (mkArr (len v) (upd (cell v) i x)).
Proof. intros H; unfold set; apply Nat.ltb_lt in H; now rewrite H. Qed.
Lemma mget_ok {A} (m : mat A) i j : i < rows m -> j < cols m -> mget m i j = Ok (ent m i j).
Proof.
  intros H1 H2; unfold mget; apply Nat.ltb_lt in H1; apply Nat.ltb_lt in H2; now rewrite H1, H2.
Qed.
Lemma mset_ok {A} (m : mat A) i j x : i < rows m -> j < cols m ->
  mset m i j x = Ok (mkMat (rows m) (cols m) (upd2 (ent m) i j x)).
Proof.
  intros H1 H2; unfold mset; apply Nat.ltb_lt in H1; apply Nat.ltb_lt in H2; now rewrite H1, H2.
Qed.
Lemma vadd_ok (v : arr R) i x : i < len v ->
  vadd v i x = Ok (mkArr (len v) (upd (cell v) i (cell v i + x)%R)).
Proof. intros H; unfold vadd; rewrite get_ok by auto; simpl; now apply set_ok. Qed.
Lemma madd_ok (m : mat R) i j x : i < rows m -> j < cols m ->
  madd m i j x = Ok (mkMat (rows m) (cols m) (upd2 (ent m) i j (ent m i j + x)%R)).
Proof. intros H1 H2; unfold madd; rewrite mget_ok by auto; simpl; now apply mset_ok. Qed.

Lemma upd_same {A} (f : nat -> A) i x : upd f i x i = x.
Proof. unfold upd; now rewrite Nat.eqb_refl. Qed.
Lemma upd_other {A} (f : nat -> A) i x k : k <> i -> upd f i x k = f k.
Proof. intros H; unfold upd; apply Nat.eqb_neq in H; now rewrite H. Qed.
Lemma upd2_same {A} (f : nat -> nat -> A) i j x : upd2 f i j x i j = x.
Proof. unfold upd2; now rewrite !Nat.eqb_refl. Qed.
Lemma upd2_other {A} (f : nat -> nat -> A) i j x a b :
  ~ (a = i /\ b = j) -> upd2 f i j x a b = f a b.
Proof.
  intros H; unfold upd2. destruct (Nat.eqb_spec a i), (Nat.eqb_spec b j); simpl; auto.
  exfalso; apply H; auto.
Qed.

Open Scope R_scope.

(** ** Finite sums *)
Lemma sum_ext n f g : (forall k, (k < n)%nat -> f k = g k) -> sum n f = sum n g.
Proof.
  induction n as [|n IH]; intros H; simpl; auto.
  rewrite IH, H; auto.
Qed.
Lemma sum_0 n f : (forall k, (k < n)%nat -> f k = 0) -> sum n f = 0.
Proof.
  induction n as [|n IH]; intros H; simpl; auto.
  rewrite IH, H; auto; lra.
Qed.
Lemma sum_plus n f g : sum n (fun k => f k + g k) = sum n f + sum n g.
Proof. induction n as [|n IH]; simpl; [lra|rewrite IH; lra]. Qed.
Lemma sum_minus n f g : sum n (fun k => f k - g k) = sum n f - sum n g.
Proof. induction n as [|n IH]; simpl; [lra|rewrite IH; lra]. Qed.
Lemma sum_opp n f : sum n (fun k => - f k) = - sum n f.
Proof. induction n as [|n IH]; simpl; [lra|rewrite IH; lra]. Qed.
Lemma sum_scal_l n c f : sum n (fun k => c * f k) = c * sum n f.
Proof. induction n as [|n IH]; simpl; [lra|rewrite IH; lra]. Qed.
Lemma sum_scal_r n c f : sum n (fun k => f k * c) = sum n f * c.
Proof. induction n as [|n IH]; simpl; [lra|rewrite IH; lra]. Qed.
Lemma sum_const n c : sum n (fun _ => c) = INR n * c.
Proof.
  induction n as [|n IH]; [simpl; lra|].
  cbn [sum]; rewrite IH, S_INR; lra.
Qed.
Lemma sum_swap n m (f : nat -> nat -> R) :
  sum n (fun i => sum m (fun j => f i j)) = sum m (fun j => sum n (fun i => f i j)).
Proof.
  induction n as [|n IH]; simpl.
  - symmetry; apply sum_0; auto.
  - rewrite IH, <- sum_plus; apply sum_ext; auto.
Qed.
Lemma sum_add n m f : sum (n + m) f = sum n f + sum m (fun k => f (n + k)%nat).
Proof.
  induction m as [|m IH]; [rewrite Nat.add_0_r; simpl; lra|].
  rewrite Nat.add_succ_r; simpl; rewrite IH; lra.
Qed.
Lemma sum_le n f g : (forall k, (k < n)%nat -> f k <= g k) -> sum n f <= sum n g.
Proof.
  induction n as [|n IH]; intros H; simpl; [lra|].
  apply Rplus_le_compat; auto.
Qed.
Lemma sum_nonneg n f : (forall k, (k < n)%nat -> 0 <= f k) -> 0 <= sum n f.
Proof.
  induction n as [|n IH]; intros H; simpl; [lra|].
  assert (0 <= sum n f) by auto. assert (0 <= f n) by auto. lra.
Qed.
(** a sum whose only non-zero term is at [i] *)
Lemma sum_single n i f : (i < n)%nat -> (forall k, (k < n)%nat -> k <> i -> f k = 0) ->
  sum n f = f i.
Proof.
  induction n as [|n IH]; intros Hi H; [lia|]; simpl.
  destruct (Nat.eq_dec i n) as [->|Hne].
  - rewrite sum_0; [lra|]. intros k Hk; apply H; lia.
  - rewrite IH by (auto; try lia; intros; apply H; lia). rewrite (H n) by lia. lra.
Qed.
(** regroup a flat index [j*d + k] *)
Lemma sum_mul n d f : sum (n * d) f = sum n (fun j => sum d (fun k => f (j * d + k)%nat)).
Proof.
  induction n as [|n IH]; [reflexivity|].
  replace (S n * d)%nat with (n * d + d)%nat by lia.
  rewrite sum_add, IH; reflexivity.
Qed.

(** ** Sums of lists *)
Lemma lsum_app l1 l2 : lsum (l1 ++ l2) = lsum l1 + lsum l2.
Proof. induction l1 as [|a l IH]; simpl; [lra|rewrite IH; lra]. Qed.
Lemma lsum_perm l1 l2 : Permutation l1 l2 -> lsum l1 = lsum l2.
Proof. induction 1; simpl; lra. Qed.
Lemma lsum_map_scal {A} c (f : A -> R) l : lsum (map (fun x => c * f x) l) = c * lsum (map f l).
Proof. induction l as [|a l IH]; simpl; [lra|rewrite IH; lra]. Qed.
Lemma lsum_map_plus {A} (f g : A -> R) l :
  lsum (map (fun x => f x + g x) l) = lsum (map f l) + lsum (map g l).
Proof. induction l as [|a l IH]; simpl; [lra|rewrite IH; lra]. Qed.
Lemma lsum_map_le {A} (f g : A -> R) l :
  (forall x, In x l -> f x <= g x) -> lsum (map f l) <= lsum (map g l).
Proof.
  induction l as [|a l IH]; simpl; intros H; [lra|].
  assert (f a <= g a) by auto. assert (lsum (map f l) <= lsum (map g l)) by auto. lra.
Qed.
Lemma lsum_map_nonneg {A} (f : A -> R) l : (forall x, In x l -> 0 <= f x) -> 0 <= lsum (map f l).
Proof.
  induction l as [|a l IH]; simpl; intros H; [lra|].
  assert (0 <= f a) by auto. assert (0 <= lsum (map f l)) by auto. lra.
Qed.

Close Scope R_scope.
Lemma flat_lt i j n m : i < n -> j < m -> i * m + j < n * m.
Proof. nia. Qed.
Lemma flat_lt' i j n m : i < n -> j < m -> m * i + j < n * m.
Proof. nia. Qed.
Lemma flat_inj a b c d m : b < m -> d < m -> a * m + b = c * m + d -> a = c /\ b = d.
Proof. intros. assert (a = c) by nia. subst. split; auto. lia. Qed.
