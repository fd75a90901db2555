(** C168, C169: velocity and normal of the interface, and the nearest point on it.  For every field, point,
    rate and solver. *)
From Coq Require Import Reals Lra Lia FunctionalExtensionality.
From Coquelicot Require Import Coquelicot.
From Coq Require Import List Arith Bool Permutation.
From Verif Require Import Base BaseLemmas RBool Sens_Model Sens_Spec Sens_Proofs2 Heat_Proofs Solid_Proofs2 Lse_Model Lse_Spec Lse_Proofs Lse_Proofs2 Lse_Proofs3.
Import ListNotations.
Open Scope R_scope.

Lemma dot_nn x : 0 <= dotp 3 x x.
Proof. unfold dotp. apply sum_nonneg. intros. apply Rle_0_sqr. Qed.

(** ** C168 *)
(** a point that moves with the velocity keeps its level *)
Theorem C168_level g dval v : boundary_velocity g dval = Ok v -> dval + dotp 3 g v = 0.
Proof.
  unfold boundary_velocity. rewrite sq3. destruct (reqb (dotp 3 g g) 0) eqn:E; [discriminate|]. apply reqb_false in E. intros [= <-].
  unfold dotp in *. rewrite !sum3 in *. field. exact E.
Qed.
(** and moves across the level set: it is the only such velocity *)
Theorem C168_unique g dval v : boundary_velocity g dval = Ok v ->
  forall w, parallel w g -> dval + dotp 3 g w = 0 -> forall i, (i < 3)%nat -> w i = v i.
Proof.
  unfold boundary_velocity. rewrite sq3. destruct (reqb (dotp 3 g g) 0) eqn:E; [discriminate|]. apply reqb_false in E. intros [= <-] w [c Hc] H i Hi.
  rewrite (Hc i Hi). assert (D : dotp 3 g w = c * dotp 3 g g). { unfold dotp. rewrite !sum3. rewrite !Hc by lia. ring. }
  rewrite D in H. assert (c = - dval / dotp 3 g g); [|congruence]. apply (Rmult_eq_reg_r (dotp 3 g g)); [|exact E]. unfold Rdiv. rewrite Rmult_assoc, Rinv_l by exact E. lra.
Qed.
(** it is the slowest velocity that keeps the level *)
Theorem C168_slowest g dval v : boundary_velocity g dval = Ok v -> forall w, dval + dotp 3 g w = 0 -> dotp 3 v v <= dotp 3 w w.
Proof.
  intros H w Hw. pose proof (C168_level _ _ _ H) as L. unfold boundary_velocity in H. rewrite sq3 in H.
  destruct (reqb (dotp 3 g g) 0) eqn:E; [discriminate|]. apply reqb_false in E. injection H as H.
  assert (D : dotp 3 v w = dotp 3 v v). { rewrite <- H in L |- *. unfold dotp in *. rewrite !sum3 in *. set (s := g 0%nat * g 0%nat + g 1%nat * g 1%nat + g 2%nat * g 2%nat) in *.
    replace (- dval / s * g 0%nat * w 0%nat + - dval / s * g 1%nat * w 1%nat + - dval / s * g 2%nat * w 2%nat) with (- dval / s * (g 0%nat * w 0%nat + g 1%nat * w 1%nat + g 2%nat * w 2%nat)) by (unfold Rdiv; ring).
    replace (g 0%nat * w 0%nat + g 1%nat * w 1%nat + g 2%nat * w 2%nat) with (- dval) by lra.
    transitivity (- dval / s * (- dval / s) * s); [field; exact E|]. unfold s. ring. }
  assert (Q : 0 <= dotp 3 (fun i => w i - v i) (fun i => w i - v i)) by apply dot_nn.
  assert (X : dotp 3 (fun i => w i - v i) (fun i => w i - v i) = dotp 3 w w - 2 * dotp 3 v w + dotp 3 v v) by (unfold dotp; rewrite !sum3; ring).
  lra.
Qed.
(** another multiple of the same level set function describes the same moving interface *)
Theorem C168_scale g dval c v : c <> 0 -> boundary_velocity g dval = Ok v ->
  exists v', boundary_velocity (fun i => c * g i) (c * dval) = Ok v' /\ forall i, v' i = v i.
Proof.
  intros C. unfold boundary_velocity. rewrite !sq3. destruct (reqb (dotp 3 g g) 0) eqn:E; [discriminate|]. apply reqb_false in E. intros [= <-].
  assert (X : dotp 3 (fun i => c * g i) (fun i => c * g i) = c * c * dotp 3 g g) by (unfold dotp; rewrite !sum3; ring).
  rewrite X. rewrite (proj2 (reqb_false (c * c * dotp 3 g g) 0)). 2:{ intros Z. apply Rmult_integral in Z. destruct Z as [Z|Z]; [|auto]. apply Rmult_integral in Z. tauto. }
  eexists. split; [reflexivity|]. intros i. cbn beta. field. auto.
Qed.
Lemma zero_len g : dotp 3 g g = 0 <-> forall i, (i < 3)%nat -> g i = 0.
Proof.
  unfold dotp. rewrite sum3. split.
  - intros H. assert (g 0%nat = 0 /\ g 1%nat = 0 /\ g 2%nat = 0) as (A & B & C) by (repeat split; nra). intros [|[|[|i]]] Hi; auto; lia.
  - intros H. rewrite !H by lia. ring.
Qed.
(** it fails exactly where the gradient vanishes *)
Theorem C168_runs g dval : (exists v, boundary_velocity g dval = Ok v) <-> ~ (forall i, (i < 3)%nat -> g i = 0).
Proof.
  unfold boundary_velocity. rewrite sq3. rewrite <- zero_len. destruct (reqb (dotp 3 g g) 0) eqn:E.
  - apply reqb_true in E. split; [intros [v H]; discriminate|tauto].
  - apply reqb_false in E. split; [auto|eauto].
Qed.
(** the normal has length one and points to where the level set function decreases *)
Theorem C168_normal m g n : normal_at_point m g = Ok n -> dotp 3 n n = 1 /\ dotp 3 n g = - len 3 g /\ dotp 3 n g < 0 /\ parallel n g.
Proof.
  unfold normal_at_point. destruct (m <? 3)%nat eqn:M; [discriminate|]. apply Nat.ltb_ge in M. rewrite norm_pad by lia.
  destruct (reqb (len 3 g) 0) eqn:E; [discriminate|]. apply reqb_false in E. intros [= <-].
  assert (P := len_pos _ _ E). assert (Q : len 3 g * len 3 g = sum 3 (fun j => g j * g j)) by apply len_sq. rewrite sum3 in Q.
  assert (D : dotp 3 (fun i => (if (i <? 3)%nat then - g i else 0) / len 3 g) g = - len 3 g).
  { unfold dotp. rewrite sum3. cbn. transitivity (- (len 3 g * len 3 g) / len 3 g); [rewrite Q; field; auto|field; auto]. }
  split; [|split; [exact D|split; [lra|]]].
  - unfold dotp. rewrite sum3. cbn. transitivity ((len 3 g * len 3 g) / (len 3 g * len 3 g)); [rewrite Q at 1; field; auto|field; auto].
  - exists (- / len 3 g). intros i Hi. apply Nat.ltb_lt in Hi. rewrite Hi. field. auto.
Qed.
(** the derivative of the normal is its derivative *)
Theorem C168_normal_derivative m g dg (t0 : R) n dn : (forall i, (i < 3)%nat -> is_derive (fun t : R => g t i) t0 (dg i)) ->
  locally t0 (fun t => normal_at_point m (g t) = Ok (n t)) -> normal_derivative_at_point m (g t0) dg = Ok dn ->
  forall i, (i < 3)%nat -> is_derive (fun t : R => n t i) t0 (dn i).
Proof.
  intros H L D i Hi. unfold normal_derivative_at_point in D. destruct (m <? 3)%nat eqn:M; [discriminate|].
  rewrite norm_len in D. set (s := sum 3 (fun k => g t0 k * g t0 k)) in *. destruct (reqb s 0) eqn:E; [discriminate|]. apply reqb_false in E.
  injection D as <-. assert (SL : len 3 (g t0) * len 3 (g t0) = s) by apply len_sq.
  assert (N : len 3 (g t0) <> 0) by (intros Z; rewrite Z in SL; lra). pose proof (len_pos _ _ N) as P.
  assert (SQ : sqrt s = len 3 (g t0)) by reflexivity. rewrite SQ.
  apply (der_near _ (fun t => - g t i / len 3 (g t)) t0).
  - revert L. apply filter_imp. intros t Et. unfold normal_at_point in Et. rewrite M in Et. apply Nat.ltb_ge in M. rewrite norm_pad in Et by lia.
    destruct (reqb (len 3 (g t)) 0); [discriminate|]. injection Et as <-. cbn beta. apply Nat.ltb_lt in Hi. now rewrite Hi.
  - pose proof (is_derive_div (fun t : R => - g t i) (fun t : R => len 3 (g t)) t0 _ _ (der_opp _ _ _ (H i Hi)) (der_comp3 g dg t0 H N) N) as C.
    eapply der_eq; [exact C|]. apply Nat.ltb_lt in Hi. rewrite Hi. rewrite <- SL. change (0 + g t0 0%nat * dg 0%nat + g t0 1%nat * dg 1%nat + g t0 2%nat * dg 2%nat) with (dotp 3 (g t0) dg).
    match goal with |- ?a = ?b => transitivity ((- dg i * len 3 (g t0) - - g t0 i * (dotp 3 (g t0) dg / len 3 (g t0))) / (len 3 (g t0) * len 3 (g t0))) end; [cbn -[len dotp]; unfold Rdiv; try rewrite Rmult_1_r; ring|]. field. exact N.
Qed.
(** and keeps the length *)
Theorem C168_derivative_tangential m g dg n dn : normal_at_point m g = Ok n -> normal_derivative_at_point m g dg = Ok dn -> dotp 3 n dn = 0.
Proof.
  unfold normal_at_point, normal_derivative_at_point. destruct (m <? 3)%nat eqn:M; [discriminate|]. apply Nat.ltb_ge in M. rewrite norm_pad by lia. rewrite norm_len.
  destruct (reqb (len 3 g) 0) eqn:E; [discriminate|]. apply reqb_false in E. intros [= <-].
  set (s := sum 3 (fun k => g k * g k)). destruct (reqb s 0); [discriminate|]. intros [= <-].
  assert (SL : s = len 3 g * len 3 g) by (symmetry; apply len_sq). assert (SQ : sqrt s = len 3 g) by reflexivity. rewrite SQ, SL.
  unfold dotp. rewrite !sum3. cbn [Nat.ltb Nat.leb]. set (l := len 3 g) in *. assert (S3 : s = g 0%nat * g 0%nat + g 1%nat * g 1%nat + g 2%nat * g 2%nat) by (unfold s; now rewrite sum3).
  set (d := g 0%nat * dg 0%nat + g 1%nat * dg 1%nat + g 2%nat * dg 2%nat).
  transitivity (d / (l * l) - d * s / (l * l * l * l)); [rewrite S3; unfold d; field; auto|]. rewrite SL. field. auto.
Qed.
(** a vector with fewer than three entries is written beyond its end *)
Theorem C168_short_refuted m g dg : (m < 3)%nat -> normal_at_point m g = Fault OutOfBounds /\ normal_derivative_at_point m g dg = Fault OutOfBounds.
Proof. intros H. apply Nat.ltb_lt in H. unfold normal_at_point, normal_derivative_at_point. now rewrite H. Qed.
Example C168_example : exists v n, boundary_velocity (fun i => INR i) 5 = Ok v /\ v 2%nat = -2 /\ normal_at_point 3 (fun i => INR i) = Ok n.
Proof.
  destruct (proj2 (C168_runs (fun i => INR i) 5)) as [v E]. { intros H. specialize (H 1%nat ltac:(lia)). cbn in H. lra. }
  assert (L : len 3 (fun i => INR i) <> 0). { unfold len. cbn. apply Rgt_not_eq. apply sqrt_lt_R0. lra. }
  exists v. eexists. split; [exact E|]. split.
  - unfold boundary_velocity in E. rewrite sq3 in E. destruct (reqb _ 0) eqn:Z; [discriminate|]. injection E as <-. unfold dotp; cbn. field.
  - unfold normal_at_point. cbn [Nat.ltb Nat.leb]. rewrite norm_pad by lia. change (len 3 INR <> 0) in L. rewrite (proj2 (reqb_false _ 0) L). reflexivity.
Qed.

(** ** C169 *)
(** the search ends, whatever the level set function and the linear solver do *)
Theorem C169_ends ls dls solve dim p v0 : search ls dls solve dim p v0 <> Fault OutOfFuel.
Proof.
  unfold search. apply loop_ends; [|lia|lia]. intros s x v [= <-]. unfold search_once. apply loop_ends; [discriminate|lia|lia].
Qed.
(** the foot of the perpendicular is the nearest point of a plane *)
Theorem C169_foot c g p : 0 < dotp 3 g g -> c + dotp 3 g (foot c g p) = 0 /\
  forall y, c + dotp 3 g y = 0 -> dist2 (foot c g p) p <= dist2 y p.
Proof.
  intros G. assert (N : dotp 3 g g <> 0) by (intros Z; lra).
  assert (F : dotp 3 g (foot c g p) = dotp 3 g p - (c + dotp 3 g p) / dotp 3 g g * dotp 3 g g). { unfold foot. generalize ((c + dotp 3 g p) / dotp 3 g g). intros k. unfold dotp. rewrite !sum3. ring. }
  assert (F0 : c + dotp 3 g (foot c g p) = 0) by (rewrite F; field; auto).
  split; [exact F0|]. intros y Hy. set (k := (c + dotp 3 g p) / dotp 3 g g) in *.
  assert (E : dist2 y p - dist2 (foot c g p) p = dist2 y (foot c g p) - 2 * k * (dotp 3 g y - dotp 3 g (foot c g p))).
  { unfold dist2, foot. fold k. unfold dotp. rewrite !sum3. ring. }
  assert (Q : 0 <= dist2 y (foot c g p)) by apply dot_nn. replace (dotp 3 g y) with (dotp 3 g (foot c g p)) in E by lra. lra.
Qed.
Section Plane.
Variables (ls : point -> option R) (dls : point -> option (nat -> R)) (solve : matrix -> vec -> vec) (c : R) (g : nat -> R).
Hypothesis A : affine ls dls c g.
Hypothesis X : exact_solver solve.
Hypothesis G : 0 < dotp 3 g g.
Notation near p r k := (forall i, (i < 3)%nat -> r i - foot c g p i = (p i - foot c g p i) / 2 ^ k).
(** on the line through p and the foot, the value determines the point *)
Lemma near_of p x k b : (forall i, (i < 3)%nat -> x i - p i = b * g i) -> c + dotp 3 g x = (c + dotp 3 g p) / 2 ^ k -> near p x k.
Proof.
  intros L V i Hi. assert (P2 : 2 ^ k <> 0) by (apply pow_nonzero; lra). assert (N : dotp 3 g g <> 0) by (intros Z; lra).
  assert (D : dotp 3 g x = dotp 3 g p + b * dotp 3 g g). { unfold dotp. rewrite !sum3. replace (x 0%nat) with (p 0%nat + b * g 0%nat) by (rewrite <- L by lia; ring).
    replace (x 1%nat) with (p 1%nat + b * g 1%nat) by (rewrite <- L by lia; ring). replace (x 2%nat) with (p 2%nat + b * g 2%nat) by (rewrite <- L by lia; ring). ring. }
  assert (B : b = ((c + dotp 3 g p) / 2 ^ k - (c + dotp 3 g p)) / dotp 3 g g).
  { apply (Rmult_eq_reg_r (dotp 3 g g)); [|exact N]. unfold Rdiv at 1. rewrite Rmult_assoc, Rinv_l by exact N. lra. }
  replace (x i) with (p i + b * g i) by (rewrite <- L by lia; ring). unfold foot. rewrite B. field. auto.
Qed.
Definition track p k (x : nat -> R) : Prop := (exists b, forall i, (i < 3)%nat -> x i - p i = b * g i) /\ c + dotp 3 g x = (c + dotp 3 g p) / 2 ^ k.
Lemma track_step p k x v g' dv1 L1 : track p k x -> ls x = Some v -> dls x = Some g' ->
  step_search ls p x (fun i => - solve (coeffs g') (gradL p x v g') i) 1 10 = Some (dv1, L1) -> track p (S k) dv1.
Proof.
  intros [[b Hb] Hv] E1 E2 S. destruct (affine_step ls dls solve c g p x v g' dv1 L1 A X G E1 E2 S) as (-> & B1 & B2 & _). split.
  - exists (1/2 * (b + x 3%nat) - dv1 3%nat). intros i Hi. specialize (B1 i Hi). rewrite (Hb i Hi) in B1. lra.
  - rewrite B2, Hv. cbn [pow]. field. apply pow_nonzero. lra.
Qed.
Lemma affine_loop sub p v0 : (forall s x v r, sub = Some s -> s x v = Ok r -> exists k, near x r k) ->
  forall r, search_loop ls dls solve 3 sub p v0 81 0 p (start p) (10 ^ 12) = Ok r -> exists k, (1 <= k)%nat /\ near p r k.
Proof.
  intros Hs r H. change 81%nat with (S 80) in H. cbn [search_loop] in H.
  destruct (A p) as [A1 A2]. rewrite A1, A2 in H. cbv zeta in H.
  destruct (step_search _ _ _ _ _ _) as [[dv1 L1]|] eqn:Es; [|exfalso; revert Es; eapply affine_never; eauto].
  destruct (A (start p)) as [B1 B2].
  assert (T0 : track p 0 (start p)). { split; [exists 0; intros i Hi; unfold start; apply Nat.ltb_lt in Hi; rewrite Hi; ring|]. replace (dotp 3 g (start p)) with (dotp 3 g p) by reflexivity. cbn. field. }
  assert (T1 : track p 1 dv1). { eapply track_step; [exact T0|exact B1|exact B2|exact Es]. }
  assert (Fin : forall x, (exists k, (1 <= k)%nat /\ track p k x) -> exists k, (1 <= k)%nat /\ near p (top 3 x) k).
  { intros x (k & Hk & [b Hb] & Hv). exists k. split; [auto|]. intros i Hi. unfold top. pose proof (proj2 (Nat.ltb_lt i 3) Hi) as Hi'. rewrite Hi'. now apply (near_of p x k b). }
  cbn [Nat.eqb] in H. match type of H with (if ?c then _ else _) = _ => destruct c end; [injection H as <-; apply Fin; eauto|].
  refine (loop_inv ls dls solve 3 sub p v0 (fun x _ => exists k, (1 <= k)%nat /\ track p k x) (fun r => exists k, (1 <= k)%nat /\ near p r k) _ _ _ _ 80 1 dv1 L1 r _ H).
  - intros x v g' d1 l1 L0 (k & Hk & T) E1 E2 St. exists (S k). split; [lia|]. eapply track_step; eauto.
  - intros x L Hx. now apply Fin.
  - intros x L v g' _ _ _ S. exfalso. revert S. eapply affine_never; eauto.
  - intros s x L v' w Es' (k & Hk & [b Hb] & Hv) Sv _. destruct (Hs s x v0 v' Es' Sv) as (k' & N'). exists (k + k')%nat. split; [lia|].
    intros i Hi. unfold top. pose proof (proj2 (Nat.ltb_lt i 3) Hi) as Hi'. rewrite Hi'.
    assert (Fx : foot c g x i = foot c g p i).
    { pose proof (near_of p x k b Hb Hv i Hi) as Q. unfold foot in *. rewrite Hv. assert (P2 : 2 ^ k <> 0) by (apply pow_nonzero; lra). assert (N : dotp 3 g g <> 0) by (intros Z; lra).
      replace (x i) with (x i - (p i - (c + dotp 3 g p) / dotp 3 g g * g i) + (p i - (c + dotp 3 g p) / dotp 3 g g * g i)) by ring. rewrite Q. field. auto. }
    specialize (N' i Hi). rewrite Fx in N'. rewrite N', (near_of p x k b Hb Hv i Hi). rewrite pow_add. field. split; apply pow_nonzero; lra.
  - exists 1%nat. auto.
Qed.
(** for a plane interface the point returned lies between p and its nearest interface point, at least half
    way: the remaining distance is the original one divided by a power of two *)
Theorem C169_plane_partial p v0 r : search ls dls solve 3 p v0 = Ok r -> exists k, (1 <= k)%nat /\ near p r k.
Proof.
  apply affine_loop. intros s x v r' [= <-] H. unfold search_once in H. apply affine_loop in H; [|discriminate]. destruct H as (k & _ & H). eauto.
Qed.
Lemma plane_ok sub p v0 : (forall s x v, sub = Some s -> exists r, s x v = Ok r) -> forall fuel k po x L, (k <= 80)%nat -> (81 <= fuel + k)%nat ->
  exists r, search_loop ls dls solve 3 sub p v0 fuel k po x L = Ok r.
Proof.
  intros Hs. induction fuel as [|fuel IH]; intros k po x L Hk Hf; [lia|]. cbn [search_loop]. destruct (A po) as [A1 A2]. rewrite A1, A2. cbv zeta.
  destruct (step_search _ _ _ _ _ _) as [[dv1 L1]|]; [|eauto]. destruct (Nat.eqb_spec k 80) as [->|D].
  - destruct sub as [s|]; [|eauto]. destruct (Hs s dv1 v0 eq_refl) as [v' ->]. cbn [bind]. destruct (A v') as [B _]. rewrite B. eauto.
  - match goal with |- exists r, (if ?c then _ else _) = _ => destruct c end; [eauto|]. apply IH; lia.
Qed.
(** and it always returns one *)
Theorem C169_plane_runs p v0 : exists r, search ls dls solve 3 p v0 = Ok r.
Proof. unfold search. apply plane_ok; [|lia|lia]. intros s x v [= <-]. unfold search_once. apply plane_ok; [discriminate|lia|lia]. Qed.
(** a point of the interface is its own nearest point *)
Theorem C169_interface_point p v0 r : c + dotp 3 g p = 0 -> search ls dls solve 3 p v0 = Ok r -> forall i, (i < 3)%nat -> r i = p i.
Proof.
  intros Z H i Hi. apply C169_plane_partial in H. destruct H as (k & _ & H). specialize (H i Hi). unfold foot in H. rewrite Z in H. unfold Rdiv in H. rewrite !Rmult_0_l, Rminus_0_r in H.
  replace (p i - p i) with 0 in H by ring. lra.
Qed.
End Plane.

(** the solution of the search's linear systems *)
Definition bordered (M : matrix) (b : vec) : vec :=
  let s := sum 3 (fun i => M i 3%nat * M i 3%nat) in let y := (sum 3 (fun i => M i 3%nat * b i) - b 3%nat) / s in
  fun i => if (i =? 3)%nat then y else b i - M i 3%nat * y.
Lemma bordered_exact : exact_solver bordered.
Proof.
  intros g b G i Hi. unfold dotp in G. rewrite sum3 in G. unfold bordered. rewrite !sum3. cbn [sum].
  destruct i as [|[|[|[|i]]]]; [| | | |lia]; unfold coeffs; cbn; field; intros Z; lra.
Qed.
Definition lx_ls : point -> option R := fun x => Some (x 0%nat).
Definition lx_dls : point -> option (nat -> R) := fun _ => Some (fun i => if (i =? 0)%nat then 1 else 0).
Lemma lx_affine : affine lx_ls lx_dls 0 (fun i => if (i =? 0)%nat then 1 else 0).
Proof. intros x. split; [|reflexivity]. unfold lx_ls, dotp. rewrite sum3. cbn. f_equal. ring. Qed.
(** one pass of the search on the level set function x, written out *)
Lemma lx_pass p x L sub v0 fuel k d1 : (forall i, d1 i = x i + 1/2 * 1 * - bordered (coeffs (fun i => if (i =? 0)%nat then 1 else 0)) (gradL p x (x 0%nat) (fun i => if (i =? 0)%nat then 1 else 0)) i) ->
  k <> 80%nat -> 
  search_loop lx_ls lx_dls bordered 3 sub p v0 (S fuel) k x x L =
  if rleb (Rabs (norm 4 (gradL p x (x 0%nat) (fun i => if (i =? 0)%nat then 1 else 0)))) stol ||
     (negb (reqb L 0) && rleb (Rabs ((1/2 * sum 3 (fun i => (d1 i - p i) ^ 2) + d1 3%nat * d1 0%nat - L) / L)) stol) then Ok (top 3 d1)
  else search_loop lx_ls lx_dls bordered 3 sub p v0 fuel (S k) d1 d1 (1/2 * sum 3 (fun i => (d1 i - p i) ^ 2) + d1 3%nat * d1 0%nat).
Proof.
  intros D K. apply Nat.eqb_neq in K. assert (D' : d1 = fun i => x i + 1/2 * 1 * - bordered (coeffs (fun i => if (i =? 0)%nat then 1 else 0)) (gradL p x (x 0%nat) (fun i => if (i =? 0)%nat then 1 else 0)) i) by (apply functional_extensionality; exact D).
  rewrite D'. cbn [search_loop]. unfold lx_ls at 1, lx_dls at 1. cbn [step_search]. unfold objective. unfold lx_ls at 1. rewrite K. reflexivity.
Qed.
(** the search accepts a point off the interface when the objective happens not to change *)
Theorem C169_interface_refuted : exists p v0 r, search lx_ls lx_dls bordered 3 p v0 = Ok r /\ lx_ls r = Some (1/2).
Proof.
  set (p := start (fun i => if (i =? 0)%nat then 2 else 0)).
  set (next := fun x : nat -> R => fun i => x i + 1/2 * 1 * - bordered (coeffs (fun i => if (i =? 0)%nat then 1 else 0)) (gradL p x (x 0%nat) (fun i => if (i =? 0)%nat then 1 else 0)) i).
  exists p, p, (top 3 (next (next p))).
  assert (V1 : next p 0%nat = 1 /\ next p 1%nat = 0 /\ next p 2%nat = 0 /\ next p 3%nat = 3/2).
  { unfold next, bordered, gradL, coeffs, p, start. cbn. repeat split; field. }
  remember (next p) as x1 eqn:E1. destruct V1 as (A0 & A1 & A2 & A3).
  assert (V2 : next x1 0%nat = 1/2 /\ next x1 1%nat = 0 /\ next x1 2%nat = 0 /\ next x1 3%nat = 7/4).
  { unfold next, bordered, gradL, coeffs, p, start. cbn. rewrite A0, A1, A2, A3. repeat split; field. }
  split; [|unfold lx_ls, top; cbn; f_equal; apply V2]. unfold search. replace (start p) with p by (apply functional_extensionality; intros [|[|[|[|i]]]]; reflexivity).
  rewrite (lx_pass p p _ _ _ 80 0 x1) by (try lia; intros i; now rewrite E1).
  assert (P : p 0%nat = 2 /\ p 1%nat = 0 /\ p 2%nat = 0 /\ p 3%nat = 1) by (repeat split; reflexivity). destruct P as (P0 & P1 & P2 & P3).
  assert (L1 : 1/2 * sum 3 (fun i => (x1 i - p i) ^ 2) + x1 3%nat * x1 0%nat = 2) by (rewrite sum3, A0, A1, A2, A3, P0, P1, P2; field).
  rewrite L1. assert (C1 : rleb (Rabs (norm 4 (gradL p p (p 0%nat) (fun i => if (i =? 0)%nat then 1 else 0)))) stol = false).
  { apply rleb_false. rewrite norm_len. unfold len. cbn [sum]. unfold gradL. cbn [Nat.ltb Nat.leb Nat.eqb]. rewrite P0, P1, P2, P3.
    match goal with |- _ < Rabs (sqrt ?e) => replace e with 5 by ring end. rewrite Rabs_right by (apply Rle_ge, sqrt_pos). unfold stol.
    apply Rlt_le_trans with 1; [lra|]. rewrite <- sqrt_1 at 1. apply sqrt_le_1; lra. }
  rewrite C1. cbn [orb]. assert (T : (10 ^ 12 : R) = 1000000000000) by ring. rewrite T.
  assert (C2 : rleb (Rabs ((2 - 1000000000000) / 1000000000000)) stol = false). { apply rleb_false. rewrite Rabs_left by lra. unfold stol. lra. }
  rewrite C2, andb_false_r.
  rewrite (lx_pass p x1 _ _ _ 79 1 (next x1)) by (try lia; intros i; reflexivity).
  destruct V2 as (B0 & B1 & B2 & B3).
  assert (L2 : 1/2 * sum 3 (fun i => (next x1 i - p i) ^ 2) + next x1 3%nat * next x1 0%nat = 2) by (rewrite sum3, B0, B1, B2, B3, P0, P1, P2; field).
  rewrite L2. rewrite (proj2 (reqb_false 2 0)) by (intros Z; lra). replace ((2 - 2) / 2) with 0 by field. rewrite Rabs_R0.
  rewrite (proj2 (rleb_true 0 stol)) by (unfold stol; lra). cbn [negb andb]. rewrite orb_true_r. reflexivity.
Qed.
Example C169_example : affine lx_ls lx_dls 0 (fun i => if (i =? 0)%nat then 1 else 0) /\ exact_solver bordered /\ 0 < dotp 3 (fun i => if (i =? 0)%nat then 1 else 0) (fun i => if (i =? 0)%nat then 1 else 0).
Proof. split; [exact lx_affine|]. split; [exact bordered_exact|]. unfold dotp. rewrite sum3. cbn. lra. Qed.

Print Assumptions C168_normal_derivative.
Print Assumptions C168_slowest.
Print Assumptions C169_ends.
Print Assumptions C169_plane_partial.
Print Assumptions C169_interface_refuted.
