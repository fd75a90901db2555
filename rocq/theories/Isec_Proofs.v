(** Proofs about the edge search and the sub-element construction. *)
From Coq Require Import List Arith NArith ZArith Lia Bool Reals Lra Psatz.
From Verif Require Import Base BaseLemmas RBool Filt_Model Isec_Model Isec_Spec.
Import ListNotations.
Open Scope R_scope.

Lemma tol_pos : 0 < tol.
Proof. unfold tol. apply Rinv_0_lt_compat. apply pow_lt. lra. Qed.
Lemma tol_le1 : tol <= 1.
Proof.
  unfold tol. rewrite <- Rinv_1. apply Rinv_le_contravar; [lra|].
  apply pow_R1_Rle. lra.
Qed.
Lemma tol_lt1 : tol < 1.
Proof.
  unfold tol. rewrite <- Rinv_1. apply Rinv_lt_contravar; [rewrite Rmult_1_l; apply pow_lt; lra|].
  apply Rlt_pow_R1; [lra|lia].
Qed.
Lemma start_gt_tol : rltb tol (Rabs (10 ^ 10)) = true.
Proof.
  apply rltb_true. apply Rle_lt_trans with 1; [apply tol_le1|].
  rewrite Rabs_right; [|apply Rle_ge, pow_le; lra].
  apply Rlt_pow_R1; [lra|lia].
Qed.
Global Opaque tol.

Lemma along_padd p q x : padd p (pscale x (psub q p)) = along p q x.
Proof. destruct p as [[a b] c], q as [[a' b'] c']. cbn. f_equal; [f_equal|]; ring. Qed.
Lemma along_back p q x : padd q (pscale x (psub p q)) = along p q (1 - x).
Proof. destruct p as [[a b] c], q as [[a' b'] c']. cbn. f_equal; [f_equal|]; ring. Qed.
Lemma along_0 p q : along p q 0 = p.
Proof. destruct p as [[a b] c], q as [[a' b'] c']. cbn. f_equal; [f_equal|]; ring. Qed.
Lemma along_1 p q : along p q 1 = q.
Proof. destruct p as [[a b] c], q as [[a' b'] c']. cbn. f_equal; [f_equal|]; ring. Qed.
Lemma along_along p q s t x : along (along p q s) (along p q t) x = along p q (s + x * (t - s)).
Proof. destruct p as [[a b] c], q as [[a' b'] c']. cbn. f_equal; [f_equal|]; ring. Qed.

Lemma dist_along p q c : 0 <= c -> dist (along p q c) p = c * dist q p.
Proof.
  intros Hc. destruct p as [[a b] d], q as [[a' b'] d']. unfold dist, dist2, along.
  match goal with |- sqrt ?u = c * sqrt ?v => replace u with (c * c * v) by ring end.
  rewrite sqrt_mult_alt by nra. rewrite sqrt_square; auto.
Qed.
Lemma dist_pos p q : p <> q -> 0 < dist p q.
Proof.
  intros H. apply sqrt_lt_R0. destruct p as [[a b] d], q as [[a' b'] d']. unfold dist2.
  pose proof (Rle_0_sqr (a - a')) as X. pose proof (Rle_0_sqr (b - b')) as Y.
  pose proof (Rle_0_sqr (d - d')) as Z. unfold Rsqr in *.
  destruct (Req_dec a a') as [A|A]; [destruct (Req_dec b b') as [B|B]; [destruct (Req_dec d d') as [D|D]|]|].
  - subst; congruence.
  - assert (0 < (d - d') * (d - d')) by (apply Rlt_0_sqr; lra). lra.
  - assert (0 < (b - b') * (b - b')) by (apply Rlt_0_sqr; lra). lra.
  - assert (0 < (a - a') * (a - a')) by (apply Rlt_0_sqr; lra). lra.
Qed.

Lemma secant_in va vb : va * vb < 0 -> 0 < - va / (vb - va) < 1.
Proof.
  intros H. destruct (Rtotal_order va 0) as [L|[E|G]].
  - assert (0 < vb) by nra. split.
    + apply Rdiv_lt_0_compat; lra.
    + apply Rmult_lt_reg_r with (vb - va); [lra|]. unfold Rdiv. rewrite Rmult_assoc, Rinv_l; lra.
  - subst. lra.
  - assert (vb < 0) by nra. replace (- va / (vb - va)) with (va / (va - vb)) by (field; lra). split.
    + apply Rdiv_lt_0_compat; lra.
    + apply Rmult_lt_reg_r with (va - vb); [lra|]. unfold Rdiv. rewrite Rmult_assoc, Rinv_l; lra.
Qed.

Lemma edge_loop_S phi k v va vb pp a b : edge_loop phi (S k) v va vb pp a b =
  (if rltb tol (Rabs v) then
     let xi := (- va / (vb - va))%R in
     let q := padd a (pscale xi (psub b a)) in
     let w := phi q in
     if rltb (w * vb)%R 0%R then edge_loop phi k w w vb q q b else edge_loop phi k w va w q a q
   else pp).
Proof. reflexivity. Qed.
(** The loop keeps its last point strictly inside the segment, and stops at a point where the level
    set is within the tolerance unless it runs out of iterations. *)
Lemma edge_loop_in phi p0 p1 fuel : forall c s t, 0 < c < 1 -> 0 <= s < t -> t <= 1 ->
  (tol < Rabs (phi (along p0 p1 c)) -> phi (along p0 p1 s) * phi (along p0 p1 t) < 0) ->
  exists c', 0 < c' < 1 /\
    edge_loop phi fuel (phi (along p0 p1 c)) (phi (along p0 p1 s)) (phi (along p0 p1 t))
      (along p0 p1 c) (along p0 p1 s) (along p0 p1 t) = along p0 p1 c'.
Proof.
  induction fuel as [|k IH]; intros c s t Hc Hs Ht Hv.
  - exists c. auto.
  - rewrite edge_loop_S; cbv zeta. destruct (rltb tol (Rabs (phi (along p0 p1 c)))) eqn:E.
    2: { exists c; auto. }
    apply rltb_true in E. specialize (Hv E).
    pose proof (secant_in _ _ Hv) as Hx. set (x := - _ / _) in *. clearbody x.
    rewrite along_padd, along_along. set (d := s + x * (t - s)).
    assert (Hd : s < d < t) by (unfold d; split; nra).
    destruct (rltb _ 0) eqn:F.
    + apply rltb_true in F. apply IH; try lra; auto.
    + apply rltb_false in F. apply IH; try lra.
      intros G. assert (phi (along p0 p1 d) <> 0) by (intros Z; rewrite Z, Rabs_R0 in G; pose proof tol_pos; lra).
      set (A := phi (along p0 p1 s)) in *. set (B := phi (along p0 p1 t)) in *. set (D := phi (along p0 p1 d)) in *.
      destruct (Rtotal_order D 0) as [L|[Z|P]]; [|lra|].
      * assert (B <= 0) by nra. assert (0 < A) by nra. nra.
      * assert (0 <= B) by nra. assert (A < 0) by nra. nra.
Qed.

(** First iteration of the loop. *)
Lemma edge_first phi p0 p1 : phi p0 * phi p1 < 0 ->
  exists x, 0 < x < 1 /\ x = - phi p0 / (phi p1 - phi p0) /\
   edge_loop phi max_iters (10 ^ 10) (phi p0) (phi p1) (0, 0, 0) p0 p1 =
   (if rltb (phi (along p0 p1 x) * phi p1) 0
    then edge_loop phi 9 (phi (along p0 p1 x)) (phi (along p0 p1 x)) (phi p1) (along p0 p1 x) (along p0 p1 x) p1
    else edge_loop phi 9 (phi (along p0 p1 x)) (phi p0) (phi (along p0 p1 x)) (along p0 p1 x) p0 (along p0 p1 x)).
Proof.
  intros H. exists (- phi p0 / (phi p1 - phi p0)). split; [apply secant_in; auto|]. split; auto.
  unfold max_iters. rewrite edge_loop_S, start_gt_tol. cbv zeta. rewrite along_padd. reflexivity.
Qed.

Lemma edge_point phi p0 p1 : phi p0 * phi p1 < 0 ->
  exists c, 0 < c < 1 /\
   edge_loop phi max_iters (10 ^ 10) (phi p0) (phi p1) (0, 0, 0) p0 p1 = along p0 p1 c.
Proof.
  intros H. destruct (edge_first phi p0 p1 H) as (x & Hx & _ & E). rewrite E. clear E.
  destruct (rltb (phi (along p0 p1 x) * phi p1) 0) eqn:F.
  - apply rltb_true in F.
    destruct (edge_loop_in phi p0 p1 9 x x 1 Hx ltac:(lra) ltac:(lra)) as (c & C1 & C2).
    { rewrite along_1. auto. }
    rewrite along_1 in C2. exists c; auto.
  - apply rltb_false in F.
    destruct (edge_loop_in phi p0 p1 9 x 0 x Hx ltac:(lra) ltac:(lra)) as (c & C1 & C2).
    { rewrite along_0. intros G.
      assert (phi (along p0 p1 x) <> 0) by (intros Z; rewrite Z, Rabs_R0 in G; pose proof tol_pos; lra).
      set (A := phi p0) in *. set (B := phi p1) in *. set (D := phi (along p0 p1 x)) in *.
      destruct (Rtotal_order D 0) as [L|[Z|P]]; [|lra|].
      * assert (B <= 0) by nra. assert (0 < A) by nra. nra.
      * assert (0 <= B) by nra. assert (A < 0) by nra. nra. }
    rewrite along_0 in C2. exists c; auto.
Qed.

Lemma ends_differ (phi : pt -> R) p0 p1 : phi p0 * phi p1 < 0 -> p1 <> p0.
Proof. intros H E. subst. nra. Qed.

Lemma edge_xi_point phi p0 p1 : phi p0 * phi p1 < 0 ->
  0 < edge_xi phi p0 p1 < 1 /\
  edge_loop phi max_iters (10 ^ 10) (phi p0) (phi p1) (0, 0, 0) p0 p1 = along p0 p1 (edge_xi phi p0 p1).
Proof.
  intros H. destruct (edge_point phi p0 p1 H) as (c & Hc & E).
  pose proof (dist_pos _ _ (ends_differ phi p0 p1 H)) as D.
  unfold edge_xi. rewrite E. rewrite dist_along by lra.
  replace (c * dist p1 p0 / dist p1 p0) with c by (field; lra). auto.
Qed.

Lemma edge_xi_affine phi p0 p1 : phi p0 * phi p1 < 0 -> affine_on phi p0 p1 ->
  phi (along p0 p1 (edge_xi phi p0 p1)) = 0.
Proof.
  intros H A. destruct (edge_first phi p0 p1 H) as (x & Hx & X & E).
  assert (Z : phi (along p0 p1 x) = 0).
  { rewrite A by lra. rewrite X. field. intros N. assert (phi p1 = phi p0) by lra.
    rewrite H0 in H. nra. }
  rewrite Z in E. rewrite Rmult_0_l in E.
  destruct (rltb 0 0) eqn:F; [apply rltb_true in F; lra|].
  rewrite edge_loop_S in E. rewrite Rabs_R0 in E.
  destruct (rltb tol 0) eqn:G; [apply rltb_true in G; pose proof tol_pos; lra|].
  destruct (edge_xi_point phi p0 p1 H) as (_ & P). rewrite E in P. rewrite <- P. exact Z.
Qed.


(** The last value seen is within the tolerance or all iterations were used: stated on the number of
    iterations left. *)
Fixpoint edge_steps (phi : pt -> R) (fuel : nat) (v va vb : R) (a b : pt) : nat :=
  match fuel with
  | O => O
  | S k =>
      if rltb tol (Rabs v) then
        let q := padd a (pscale (- va / (vb - va)) (psub b a)) in
        let w := phi q in
        S (if rltb (w * vb)%R 0%R then edge_steps phi k w w vb q b else edge_steps phi k w va w a q)
      else O
  end.
Lemma edge_loop_res phi fuel : forall v va vb pp a b, v = phi pp ->
  Rabs (phi (edge_loop phi fuel v va vb pp a b)) <= tol \/ edge_steps phi fuel v va vb a b = fuel.
Proof.
  induction fuel as [|k IH]; intros v va vb pp a b E.
  - right; reflexivity.
  - cbn [edge_loop edge_steps]. cbv zeta. destruct (rltb tol (Rabs v)) eqn:F.
    + destruct (rltb _ 0);
      (edestruct IH as [X|X]; [reflexivity|left; exact X|right; rewrite X; reflexivity]).
    + left. apply rltb_false in F. rewrite <- E. auto.
Qed.
