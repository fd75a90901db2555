From Coq Require Import Reals Lra.
From Coquelicot Require Import Coquelicot.
From Coq Require Import List Arith Bool Lia.
From Verif Require Import Base BaseLemmas Sens_Spec Sens_Proofs Sens_Proofs2 Heat_Proofs Solid_Model Solid_Spec Solid_Proofs2 Dof6_Model Beam_Model Beam_Spec.
Import ListNotations.
Open Scope R_scope.

Section D.
Variable n : nat.
(** the bilinear form of a matrix *)
Definition bil (j : dmat) (d v : dofs) : R := dot6 n (times6 n j v) d.

Lemma dot_ext f f' d d' : (forall c a, (c < 6)%nat -> (a < n)%nat -> f c a = f' c a /\ d c a = d' c a) -> dot6 n f d = dot6 n f' d'.
Proof. intros H. unfold dot6. apply sum_ext. intros c Hc. apply sum_ext. intros a Ha. destruct (H c a Hc Ha) as [-> ->]. reflexivity. Qed.
Lemma dot_plusf w v f d : dot6 n (plusf w v f) d = dot6 n f d + w * dot6 n v d.
Proof.
  unfold dot6, plusf. rewrite <- sum_scal_l, <- sum_plus. apply sum_ext. intros c _.
  rewrite <- sum_scal_l, <- sum_plus. apply sum_ext. intros; ring.
Qed.
Lemma times_plusj w v j u c a : times6 n (plusj w v j) u c a = times6 n j u c a + w * times6 n v u c a.
Proof. unfold times6. change (fun d => sum n (fun b => plusj w v j c a d b * u d b)) with (fun d => sum n (fun b => plusf w (v c a) (j c a) d b * u d b)).
  exact (dot_plusf w (v c a) (j c a) u). Qed.
Lemma bil_plusj w v j d u : bil (plusj w v j) d u = bil j d u + w * bil v d u.
Proof.
  unfold bil. rewrite <- dot_plusf. apply dot_ext. intros c a _ _. split; [|reflexivity]. apply times_plusj.
Qed.
Lemma sum_swap3 m (F : nat -> nat -> nat -> R) : sum 6 (fun c => sum n (fun a => sum m (fun r => F c a r))) = sum m (fun r => sum 6 (fun c => sum n (fun a => F c a r))).
Proof.
  rewrite (sum_swap m 6 (fun r c => sum n (fun a => F c a r))). apply sum_ext. intros c _.
  apply (sum_swap n m (fun a r => F c a r)).
Qed.
Lemma dot_vmt m B s d : dot6 n (vmt m B s) d = sum m (fun r => vm n B d r * s r).
Proof.
  unfold dot6, vmt, vm.
  transitivity (sum 6 (fun c => sum n (fun a => sum m (fun r => B r c a * d c a * s r)))).
  - apply sum_ext. intros c _. apply sum_ext. intros a _. rewrite <- sum_scal_r. apply sum_ext. intros; ring.
  - rewrite sum_swap3. apply sum_ext. intros r _. rewrite <- sum_scal_r. apply sum_ext. intros c _. rewrite <- sum_scal_r. reflexivity.
Qed.
Lemma times_rmt m B M u c a : times6 n (rmt m B M) u c a = vmt m B (vm n M u) c a.
Proof.
  unfold times6, rmt, vmt, vm.
  transitivity (sum 6 (fun d => sum n (fun b => sum m (fun r => B r c a * (M r d b * u d b))))).
  - apply sum_ext. intros d _. apply sum_ext. intros b _. rewrite <- sum_scal_r. apply sum_ext. intros; ring.
  - rewrite sum_swap3. apply sum_ext. intros r _. rewrite <- sum_scal_l. apply sum_ext. intros d _. now rewrite <- sum_scal_l.
Qed.
Lemma bil_rmt m B M d u : bil (rmt m B M) d u = sum m (fun r => vm n B d r * vm n M u r).
Proof.
  unfold bil. rewrite <- dot_vmt. apply dot_ext. intros c a _ _. split; [|reflexivity]. apply times_rmt.
Qed.
Lemma vm_lm m B A u r : vm n (lm m B A) u r = sum m (fun k => A r k * vm n B u k).
Proof.
  unfold vm, lm. transitivity (sum 6 (fun c => sum n (fun a => sum m (fun k => A r k * (B k c a * u c a))))).
  - apply sum_ext. intros c _. apply sum_ext. intros a _. rewrite <- sum_scal_r. apply sum_ext. intros; ring.
  - rewrite sum_swap3. apply sum_ext. intros k _. rewrite <- sum_scal_l. apply sum_ext. intros c _. now rewrite <- sum_scal_l.
Qed.
Lemma vm_zop u r : vm n zop u r = 0.
Proof. unfold vm, zop. apply sum_0. intros c _. apply sum_0. intros; ring. Qed.
Lemma vm_oset B r c s u k : (c < 6)%nat -> (forall a, B r c a = 0) ->
  vm n (oset B r c s) u k = vm n B u k + (if Nat.eqb k r then sum n (fun a => s a * u c a) else 0).
Proof.
  intros Hc HB. unfold vm, oset. destruct (Nat.eqb_spec k r) as [->|].
  - assert (E : sum n (fun a => s a * u c a) = sum 6 (fun d => if Nat.eqb d c then sum n (fun a => s a * u c a) else 0)).
    { do 6 (destruct c as [|c]; [cbn [sum Nat.eqb]; ring|]). lia. }
    rewrite E, <- sum_plus. apply sum_ext. intros d _. destruct (Nat.eqb_spec d c) as [->|]; cbn [andb].
    + rewrite (sum_0 n (fun a => B r c a * u c a)); [ring|]. intros a _. rewrite HB. ring.
    + rewrite Rplus_0_r. reflexivity.
  - rewrite Rplus_0_r. reflexivity.
Qed.
Lemma dot_zf d : dot6 n zf d = 0.
Proof. unfold dot6, zf. apply sum_0. intros. apply sum_0. intros; ring. Qed.
Lemma bil_zj d u : bil zj d u = 0.
Proof. unfold bil. rewrite <- (dot_zf d). apply dot_ext. intros c a _ _. split; [|reflexivity]. unfold times6, zj, zf. apply sum_0. intros. apply sum_0. intros; ring. Qed.

Lemma dot_unit f c a : (c < 6)%nat -> (a < n)%nat -> dot6 n f (unit_dof c a) = f c a.
Proof.
  intros Hc Ha. unfold dot6, unit_dof.
  rewrite (sum_single 6 c); auto.
  - rewrite (sum_single n a); auto.
    + rewrite !Nat.eqb_refl. cbn [andb]. ring.
    + intros b _ Hb. destruct (Nat.eqb_spec a b); [congruence|]. rewrite andb_false_r. ring.
  - intros d _ Hd. destruct (Nat.eqb_spec c d); [congruence|]. apply sum_0. intros. cbn [andb]. ring.
Qed.

(** *** axes *)
Lemma local_axes t u c a : to_local t u c a = in_axes t u c a.
Proof. destruct t; reflexivity. Qed.
Lemma dot_global t f d : dot6 n (to_global t f) d = dot6 n f (to_local t d).
Proof.
  destruct t as [t|]; [|reflexivity]. unfold dot6, to_global, to_local.
  rewrite (sum_swap 6 n (fun c a => sum 3 (fun k => t (c mod 3) k * f (3 * (c / 3) + k)%nat a) * d c a)).
  rewrite (sum_swap 6 n (fun c a => f c a * sum 3 (fun k => t k (c mod 3) * d (3 * (c / 3) + k)%nat a))).
  apply sum_ext. intros a _. cbn [sum Nat.modulo Nat.divmod Nat.div fst snd Nat.sub Nat.mul Nat.add]. ring.
Qed.
Lemma times_global t j v c a : times6 n (mat_to_global t j) v c a = to_global t (times6 n j (to_local t v)) c a.
Proof.
  destruct t as [t|]; [|reflexivity].
  transitivity (dot6 n (to_global (Some t) (fun d b => sum 3 (fun k => t (c mod 3)%nat k * j (3 * (c / 3) + k)%nat a d b))) v).
  - unfold times6, dot6, mat_to_global, to_global. apply sum_ext. intros d _. apply sum_ext. intros b _. f_equal. apply sum_ext. intros l _. ring.
  - rewrite dot_global. unfold dot6, to_global.
    transitivity (sum 6 (fun d => sum n (fun b => sum 3 (fun k => t (c mod 3)%nat k * (j (3 * (c / 3) + k)%nat a d b * to_local (Some t) v d b))))).
    + apply sum_ext. intros d _. apply sum_ext. intros b _. rewrite <- sum_scal_r. apply sum_ext. intros; ring.
    + rewrite sum_swap3. apply sum_ext. intros k _. unfold times6. rewrite <- sum_scal_l. apply sum_ext. intros d _. now rewrite <- sum_scal_l.
Qed.
Lemma bil_global t j d v : bil (mat_to_global t j) d v = bil j (to_local t d) (to_local t v).
Proof.
  unfold bil. rewrite <- dot_global. apply dot_ext. intros c a _ _. split; [|reflexivity]. apply times_global.
Qed.

(** *** histories *)
Lemma der_vm B (u : R -> dofs) du t0 r : history6 n t0 u du -> is_derive (fun s => vm n B (u s) r) t0 (vm n B du r).
Proof.
  intros H. unfold vm. apply der_sum. intros c Hc. apply der_sum. intros a Ha. apply der_scal. auto.
Qed.
Lemma mod3 c k : (c < 6)%nat -> (k < 3)%nat -> (3 * (c / 3) + k < 6)%nat.
Proof. intros. assert (c / 3 < 2)%nat by (apply Nat.div_lt_upper_bound; lia). lia. Qed.
Lemma history_local t (u : R -> dofs) du t0 : history6 n t0 u du -> history6 n t0 (fun s => to_local t (u s)) (to_local t du).
Proof.
  intros H. destruct t as [t|]; [|exact H]. intros c a Hc Ha. unfold to_local.
  apply der_sum. intros k Hk. apply der_scal. apply H; auto. now apply mod3.
Qed.
Lemma der_dot (F : R -> dofs) dF d t0 : (forall c a, (c < 6)%nat -> (a < n)%nat -> is_derive (fun s => F s c a) t0 (dF c a)) ->
  is_derive (fun s => dot6 n (F s) d) t0 (dot6 n dF d).
Proof.
  intros H. unfold dot6. apply der_sum. intros c Hc. apply der_sum. intros a Ha.
  apply (der_ext (fun s => d c a * F s c a) _ t0 (d c a * dF c a)); [intros; ring|ring|]. apply der_scal. auto.
Qed.
End D.
