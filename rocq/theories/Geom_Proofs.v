(** Proofs about the local axes. *)
From Coq Require Import Reals Lra Nsatz.
From Coquelicot Require Import Coquelicot.
From Coq Require Import List Arith Bool Lia.
From Verif Require Import Base BaseLemmas RBool Geom_Model Geom_Spec.
Import ListNotations.
Open Scope R_scope.

Lemma inner3 a b : inner a b = a 0%nat * b 0%nat + a 1%nat * b 1%nat + a 2%nat * b 2%nat.
Proof. unfold inner. cbn [sum]. ring. Qed.
Lemma inner_nonneg a : 0 <= inner a a.
Proof. rewrite inner3. nra. Qed.
Lemma norm_sq a : norm a * norm a = inner a a.
Proof. unfold norm. apply sqrt_sqrt. apply inner_nonneg. Qed.
Lemma norm_nonneg a : 0 <= norm a.
Proof. unfold norm. apply sqrt_pos. Qed.
Lemma norm_0 a : norm a = 0 <-> same3 a (fun _ => 0).
Proof.
  split.
  - intros H. assert (I : inner a a = 0) by (rewrite <- norm_sq, H; ring). rewrite inner3 in I.
    intros i Hi. destruct i as [|[|[|i]]]; [nra|nra|nra|lia].
  - intros H. unfold norm. replace (sum 3 (fun i => a i * a i)) with 0; [apply sqrt_0|].
    symmetry. apply sum_0. intros i Hi. rewrite H by auto. ring.
Qed.
Lemma pdiv_ok a v : pdiv a (norm a) = Ok v -> 0 < norm a /\ (forall i, v i = a i / norm a) /\ inner v v = 1.
Proof.
  unfold pdiv. destruct (reqb (norm a) 0) eqn:E; [discriminate|]. apply reqb_false in E. intros H. injection H as <-.
  assert (P := norm_nonneg a). assert (0 < norm a) by lra. split; [auto|]. split; [auto|].
  rewrite inner3. assert (Q := norm_sq a). rewrite inner3 in Q. field_simplify_eq; [lra|auto].
Qed.
Lemma pdiv_runs a : norm a <> 0 -> exists v, pdiv a (norm a) = Ok v.
Proof. intros H. unfold pdiv. destruct (reqb (norm a) 0) eqn:E; [apply reqb_true in E; contradiction|]. eexists. reflexivity. Qed.
Lemma pdiv_fault a : norm a = 0 -> pdiv a (norm a) = Fault DivByZero.
Proof. intros H. unfold pdiv. destruct (reqb (norm a) 0) eqn:E; [reflexivity|apply reqb_false in E; contradiction]. Qed.

(** polynomial identities of a unit vector a, a unit vector c orthogonal to it, and c x a *)
Section Poly.
Variables a0 a1 a2 c0 c1 c2 : R.
Hypothesis A : a0 * a0 + a1 * a1 + a2 * a2 = 1.
Hypothesis C : c0 * c0 + c1 * c1 + c2 * c2 = 1.
Hypothesis D : c0 * a0 + c1 * a1 + c2 * a2 = 0.
Let b0 := c1 * a2 - c2 * a1.
Let b1 := c2 * a0 - c0 * a2.
Let b2 := c0 * a1 - c1 * a0.
Lemma poly_b : b0 * b0 + b1 * b1 + b2 * b2 = 1.
Proof.
  transitivity ((a0 * a0 + a1 * a1 + a2 * a2) * (c0 * c0 + c1 * c1 + c2 * c2) - (c0 * a0 + c1 * a1 + c2 * a2) * (c0 * a0 + c1 * a1 + c2 * a2)).
  - unfold b0, b1, b2. ring.
  - rewrite A, C, D. ring.
Qed.
Lemma poly_00 : a0 * a0 + b0 * b0 + c0 * c0 = 1. Proof. unfold b0. nsatz. Qed.
Lemma poly_11 : a1 * a1 + b1 * b1 + c1 * c1 = 1. Proof. unfold b1. nsatz. Qed.
Lemma poly_22 : a2 * a2 + b2 * b2 + c2 * c2 = 1. Proof. unfold b2. nsatz. Qed.
Lemma poly_01 : a0 * a1 + b0 * b1 + c0 * c1 = 0. Proof. unfold b0, b1. nsatz. Qed.
Lemma poly_02 : a0 * a2 + b0 * b2 + c0 * c2 = 0. Proof. unfold b0, b2. nsatz. Qed.
Lemma poly_12 : a1 * a2 + b1 * b2 + c1 * c2 = 0. Proof. unfold b1, b2. nsatz. Qed.
End Poly.

(** completing a unit vector and another vector to axes *)
Section Axes.
Variables (v1 w v3 : point).
Hypothesis U1 : inner v1 v1 = 1.
Hypothesis H3 : pdiv (cross v1 w) (norm (cross v1 w)) = Ok v3.
Lemma v3_unit : inner v3 v3 = 1. Proof. apply (pdiv_ok _ _ H3). Qed.
Lemma v3_v1 : inner v3 v1 = 0.
Proof.
  destruct (pdiv_ok _ _ H3) as (P & E & _). rewrite inner3, !E. unfold cross. field. unfold cross in P. lra.
Qed.
Lemma cross_norm : norm (cross v3 v1) = 1.
Proof.
  assert (A := v3_unit). assert (B := v3_v1). assert (C := norm_sq (cross v3 v1)). assert (D := norm_nonneg (cross v3 v1)).
  rewrite inner3 in A, B. assert (U := U1). rewrite inner3 in U.
  assert (E : inner (cross v3 v1) (cross v3 v1) = 1).
  { rewrite inner3. exact (poly_b _ _ _ _ _ _ U A B). }
  rewrite E in C. nra.
Qed.
Lemma v2_ok : exists v2, pdiv (cross v3 v1) (norm (cross v3 v1)) = Ok v2 /\ forall i, v2 i = cross v3 v1 i.
Proof.
  destruct (pdiv_runs (cross v3 v1)) as [v2 E]; [rewrite cross_norm; lra|]. exists v2. split; [exact E|].
  intros i. destruct (pdiv_ok _ _ E) as (_ & Q & _). rewrite Q, cross_norm. field.
Qed.
Variable v2 : point.
Hypothesis H2 : pdiv (cross v3 v1) (norm (cross v3 v1)) = Ok v2.
Lemma v2_eq i : v2 i = cross v3 v1 i.
Proof. destruct v2_ok as (v & E & Q). rewrite H2 in E. injection E as ->. apply Q. Qed.
Lemma axes : rotation (tmat v1 v2 v3).
Proof.
  assert (A := v3_unit). assert (B := v3_v1). assert (U := U1). rewrite inner3 in A, B, U.
  assert (E0 : v2 0%nat = v3 1%nat * v1 2%nat - v3 2%nat * v1 1%nat) by exact (v2_eq 0).
  assert (E1 : v2 1%nat = v3 2%nat * v1 0%nat - v3 0%nat * v1 2%nat) by exact (v2_eq 1).
  assert (E2 : v2 2%nat = v3 0%nat * v1 1%nat - v3 1%nat * v1 0%nat) by exact (v2_eq 2).
  assert (PB := poly_b _ _ _ _ _ _ U A B).
  split; [|split].
  - intros i j Hi Hj. rewrite inner3. unfold column.
    destruct i as [|[|[|i]]], j as [|[|[|j]]]; try lia; unfold tmat, kron; cbn [Nat.eqb]; rewrite ?E0, ?E1, ?E2; try lra; try ring.
  - intros i j Hi Hj. rewrite inner3.
    assert (P0 := poly_00 _ _ _ _ _ _ U A B). assert (P1 := poly_11 _ _ _ _ _ _ U A B). assert (P2 := poly_22 _ _ _ _ _ _ U A B).
    assert (P3 := poly_01 _ _ _ _ _ _ U A B). assert (P4 := poly_02 _ _ _ _ _ _ U A B). assert (P5 := poly_12 _ _ _ _ _ _ U A B).
    destruct i as [|[|[|i]]], j as [|[|[|j]]]; try lia; unfold tmat, kron; cbn [Nat.eqb]; rewrite ?E0, ?E1, ?E2; lra.
  - unfold det3. rewrite inner3. unfold column, cross, tmat. rewrite ?E0, ?E1, ?E2.
    transitivity ((v1 0%nat * v1 0%nat + v1 1%nat * v1 1%nat + v1 2%nat * v1 2%nat) * (v3 0%nat * v3 0%nat + v3 1%nat * v3 1%nat + v3 2%nat * v3 2%nat)
      - (v3 0%nat * v1 0%nat + v3 1%nat * v1 1%nat + v3 2%nat * v1 2%nat) * (v3 0%nat * v1 0%nat + v3 1%nat * v1 1%nat + v3 2%nat * v1 2%nat)); [ring|].
    rewrite A, B, U. ring.
Qed.
(** the second vector is in the half plane of the first two axes *)
Lemma w_z : inner v3 w = 0.
Proof.
  destruct (pdiv_ok _ _ H3) as (P & E & _). rewrite inner3, !E. unfold cross. field. unfold cross in P. lra.
Qed.
Lemma w_y : 0 < inner v2 w.
Proof.
  destruct (pdiv_ok _ _ H3) as (P & E & _).
  assert (Q : inner v2 w = norm (cross v1 w)).
  { rewrite inner3, !v2_eq. unfold cross at 1 2 3.
    assert (N := norm_sq (cross v1 w)). rewrite inner3 in N.
    transitivity (v3 0%nat * cross v1 w 0%nat + v3 1%nat * cross v1 w 1%nat + v3 2%nat * cross v1 w 2%nat).
    - unfold cross. ring.
    - rewrite !E. field_simplify_eq; [|lra]. lra. }
  lra.
Qed.
End Axes.

(** coordinates in the axes and back *)
Lemma to_and_back t (p : point) j : rotation t -> (j < 3)%nat ->
  sum 3 (fun k => t j k * sum 3 (fun i => t i k * p i)) = p j.
Proof.
  intros (_ & R & _) Hj. 
  assert (R0 := R j 0%nat Hj ltac:(lia)). assert (R1 := R j 1%nat Hj ltac:(lia)). assert (R2 := R j 2%nat Hj ltac:(lia)).
  rewrite inner3 in R0, R1, R2.
  transitivity (p 0%nat * kron j 0 + p 1%nat * kron j 1 + p 2%nat * kron j 2).
  - rewrite <- R0, <- R1, <- R2. cbn [sum]. ring.
  - unfold kron. destruct j as [|[|[|j]]]; [..|lia]; cbn; ring.
Qed.
Lemma back_and_to t (p : point) j : rotation t -> (j < 3)%nat ->
  sum 3 (fun k => t k j * sum 3 (fun i => t k i * p i)) = p j.
Proof.
  intros (R & _ & _) Hj. 
  assert (R0 := R j 0%nat Hj ltac:(lia)). assert (R1 := R j 1%nat Hj ltac:(lia)). assert (R2 := R j 2%nat Hj ltac:(lia)).
  rewrite inner3 in R0, R1, R2. unfold column in R0, R1, R2.
  transitivity (p 0%nat * kron j 0 + p 1%nat * kron j 1 + p 2%nat * kron j 2).
  - rewrite <- R0, <- R1, <- R2. cbn [sum]. ring.
  - unfold kron. destruct j as [|[|[|j]]]; [..|lia]; cbn; ring.
Qed.
Lemma inner_local t (p q : point) : rotation t ->
  inner (fun j => sum 3 (fun k => t k j * p k)) (fun j => sum 3 (fun k => t k j * q k)) = inner p q.
Proof.
  intros R. unfold inner.
  transitivity (sum 3 (fun k => p k * sum 3 (fun j => t k j * sum 3 (fun i => t i j * q i)))); [cbn [sum]; ring|].
  apply sum_ext. intros k Hk. now rewrite to_and_back.
Qed.
Lemma inner_global t (p q : point) : rotation t ->
  inner (fun j => sum 3 (fun k => t j k * p k)) (fun j => sum 3 (fun k => t j k * q k)) = inner p q.
Proof.
  intros R. unfold inner.
  transitivity (sum 3 (fun k => p k * sum 3 (fun j => t j k * sum 3 (fun i => t j i * q i)))); [cbn [sum]; ring|].
  apply sum_ext. intros k Hk. now rewrite back_and_to.
Qed.
Lemma cross_independent a b : norm (cross a b) = 0 <-> ~ independent a b.
Proof.
  unfold independent. rewrite norm_0. split; [intros H K; contradiction|].
  intros H. destruct (Rlt_le_dec 0 (norm (cross a b))) as [L|L].
  - exfalso. apply H. intros K. apply norm_0 in K. lra.
  - apply norm_0. assert (P := norm_nonneg (cross a b)). lra.
Qed.
Lemma cross_scale a b v w r s : (forall i, v i = a i / r) -> (forall i, w i = b i / s) -> r <> 0 -> s <> 0 ->
  (norm (cross v w) = 0 <-> norm (cross a b) = 0).
Proof.
  intros V W Hr Hs. rewrite !norm_0. split; intros H i Hi; assert (K := H i Hi).
  - assert (Q : cross a b i = cross v w i * (r * s)). { unfold cross. destruct i as [|[|i]]; rewrite !V, !W; field; auto. }
    rewrite Q, K. ring.
  - assert (Q : cross v w i = cross a b i / (r * s)). { unfold cross. destruct i as [|[|i]]; rewrite !V, !W; field; auto. }
    rewrite Q, K. field. auto.
Qed.
