(** Proofs about the orientation of materials. *)
From Coquelicot Require Import Coquelicot.
From Coq Require Import List Arith Bool Reals Lra Lia.
From Verif Require Import Base BaseLemmas Mat_Model Mat_Spec Coor_Model Coor_Spec.
Open Scope R_scope.

Ltac ix3 i := destruct i as [|[|[|i]]]; [..|exfalso; lia].
Ltac ix6 i := destruct i as [|[|[|[|[|[|i]]]]]]; [..|exfalso; lia].

(** The transpose of a matrix with orthonormal columns has orthonormal columns. *)
Section Ortho.
Variables a0 a1 a2 b0 b1 b2 c0 c1 c2 : R.
Let det := a0 * (b1 * c2 - b2 * c1) - a1 * (b0 * c2 - b2 * c0) + a2 * (b0 * c1 - b1 * c0).
Lemma cramer x y z : a0 * x + a1 * y + a2 * z = 0 -> b0 * x + b1 * y + b2 * z = 0 -> c0 * x + c1 * y + c2 * z = 0 -> det <> 0 ->
  x = 0 /\ y = 0 /\ z = 0.
Proof.
  intros H1 H2 H3 D.
  assert (X : det * x = 0).
  { replace (det * x) with ((b1 * c2 - b2 * c1) * (a0 * x + a1 * y + a2 * z) - (a1 * c2 - a2 * c1) * (b0 * x + b1 * y + b2 * z) + (a1 * b2 - a2 * b1) * (c0 * x + c1 * y + c2 * z)) by (unfold det; ring).
    rewrite H1, H2, H3. ring. }
  assert (Y : det * y = 0).
  { replace (det * y) with (- (b0 * c2 - b2 * c0) * (a0 * x + a1 * y + a2 * z) + (a0 * c2 - a2 * c0) * (b0 * x + b1 * y + b2 * z) - (a0 * b2 - a2 * b0) * (c0 * x + c1 * y + c2 * z)) by (unfold det; ring).
    rewrite H1, H2, H3. ring. }
  assert (Z : det * z = 0).
  { replace (det * z) with ((b0 * c1 - b1 * c0) * (a0 * x + a1 * y + a2 * z) - (a0 * c1 - a1 * c0) * (b0 * x + b1 * y + b2 * z) + (a0 * b1 - a1 * b0) * (c0 * x + c1 * y + c2 * z)) by (unfold det; ring).
    rewrite H1, H2, H3. ring. }
  repeat split; match goal with H : det * ?u = 0 |- ?u = 0 => apply Rmult_integral in H; destruct H; [contradiction|assumption] end.
Qed.
(** a, b, c are the columns. *)
Hypothesis aa : a0 * a0 + a1 * a1 + a2 * a2 = 1.
Hypothesis bb : b0 * b0 + b1 * b1 + b2 * b2 = 1.
Hypothesis cc : c0 * c0 + c1 * c1 + c2 * c2 = 1.
Hypothesis ab : a0 * b0 + a1 * b1 + a2 * b2 = 0.
Hypothesis ac : a0 * c0 + a1 * c1 + a2 * c2 = 0.
Hypothesis bc : b0 * c0 + b1 * c1 + b2 * c2 = 0.
Lemma det_nz : det <> 0.
Proof.
  intros D.
  assert (Q : det * det = (a0 * a0 + a1 * a1 + a2 * a2) * ((b0 * b0 + b1 * b1 + b2 * b2) * (c0 * c0 + c1 * c1 + c2 * c2) - (b0 * c0 + b1 * c1 + b2 * c2) * (b0 * c0 + b1 * c1 + b2 * c2))
     - (a0 * b0 + a1 * b1 + a2 * b2) * ((a0 * b0 + a1 * b1 + a2 * b2) * (c0 * c0 + c1 * c1 + c2 * c2) - (b0 * c0 + b1 * c1 + b2 * c2) * (a0 * c0 + a1 * c1 + a2 * c2))
     + (a0 * c0 + a1 * c1 + a2 * c2) * ((a0 * b0 + a1 * b1 + a2 * b2) * (b0 * c0 + b1 * c1 + b2 * c2) - (b0 * b0 + b1 * b1 + b2 * b2) * (a0 * c0 + a1 * c1 + a2 * c2))) by (unfold det; ring).
  rewrite aa, bb, cc, ab, ac, bc, D in Q. lra.
Qed.
Lemma rows_ortho :
  a0 * a0 + b0 * b0 + c0 * c0 = 1 /\ a1 * a1 + b1 * b1 + c1 * c1 = 1 /\ a2 * a2 + b2 * b2 + c2 * c2 = 1 /\
  a0 * a1 + b0 * b1 + c0 * c1 = 0 /\ a0 * a2 + b0 * b2 + c0 * c2 = 0 /\ a1 * a2 + b1 * b2 + c1 * c2 = 0.
Proof.
  pose proof det_nz as D.
  destruct (cramer (a0 * a0 + b0 * b0 + c0 * c0 - 1) (a0 * a1 + b0 * b1 + c0 * c1) (a0 * a2 + b0 * b2 + c0 * c2)) as (x1 & x2 & x3); auto.
  1: transitivity (a0 * (a0 * a0 + a1 * a1 + a2 * a2) + b0 * (a0 * b0 + a1 * b1 + a2 * b2) + c0 * (a0 * c0 + a1 * c1 + a2 * c2) - a0); [ring|rewrite aa, ab, ac; ring].
  1: transitivity (a0 * (a0 * b0 + a1 * b1 + a2 * b2) + b0 * (b0 * b0 + b1 * b1 + b2 * b2) + c0 * (b0 * c0 + b1 * c1 + b2 * c2) - b0); [ring|rewrite bb, ab, bc; ring].
  1: transitivity (a0 * (a0 * c0 + a1 * c1 + a2 * c2) + b0 * (b0 * c0 + b1 * c1 + b2 * c2) + c0 * (c0 * c0 + c1 * c1 + c2 * c2) - c0); [ring|rewrite cc, ac, bc; ring].
  destruct (cramer (a0 * a1 + b0 * b1 + c0 * c1) (a1 * a1 + b1 * b1 + c1 * c1 - 1) (a1 * a2 + b1 * b2 + c1 * c2)) as (y1 & y2 & y3); auto.
  1: transitivity (a1 * (a0 * a0 + a1 * a1 + a2 * a2) + b1 * (a0 * b0 + a1 * b1 + a2 * b2) + c1 * (a0 * c0 + a1 * c1 + a2 * c2) - a1); [ring|rewrite aa, ab, ac; ring].
  1: transitivity (a1 * (a0 * b0 + a1 * b1 + a2 * b2) + b1 * (b0 * b0 + b1 * b1 + b2 * b2) + c1 * (b0 * c0 + b1 * c1 + b2 * c2) - b1); [ring|rewrite bb, ab, bc; ring].
  1: transitivity (a1 * (a0 * c0 + a1 * c1 + a2 * c2) + b1 * (b0 * c0 + b1 * c1 + b2 * c2) + c1 * (c0 * c0 + c1 * c1 + c2 * c2) - c1); [ring|rewrite cc, ac, bc; ring].
  destruct (cramer (a0 * a2 + b0 * b2 + c0 * c2) (a1 * a2 + b1 * b2 + c1 * c2) (a2 * a2 + b2 * b2 + c2 * c2 - 1)) as (z1 & z2 & z3); auto.
  1: transitivity (a2 * (a0 * a0 + a1 * a1 + a2 * a2) + b2 * (a0 * b0 + a1 * b1 + a2 * b2) + c2 * (a0 * c0 + a1 * c1 + a2 * c2) - a2); [ring|rewrite aa, ab, ac; ring].
  1: transitivity (a2 * (a0 * b0 + a1 * b1 + a2 * b2) + b2 * (b0 * b0 + b1 * b1 + b2 * b2) + c2 * (b0 * c0 + b1 * c1 + b2 * c2) - b2); [ring|rewrite bb, ab, bc; ring].
  1: transitivity (a2 * (a0 * c0 + a1 * c1 + a2 * c2) + b2 * (b0 * c0 + b1 * c1 + b2 * c2) + c2 * (c0 * c0 + c1 * c1 + c2 * c2) - c2); [ring|rewrite cc, ac, bc; ring].
  repeat split; lra.
Qed.
End Ortho.

Lemma tr_ortho A : orthonormal A -> orthonormal (tr A).
Proof.
  intros (Hr & Hc & H). split; [exact Hc|]. split; [exact Hr|].
  assert (G : forall i j, (i < 3)%nat -> (j < 3)%nat -> ent A 0%nat i * ent A 0%nat j + ent A 1%nat i * ent A 1%nat j + ent A 2%nat i * ent A 2%nat j = if Nat.eqb i j then 1 else 0).
  { intros i j Hi Hj. rewrite <- (H i j Hi Hj). cbn [sum]. ring. }
  destruct (rows_ortho (ent A 0%nat 0%nat) (ent A 1%nat 0%nat) (ent A 2%nat 0%nat) (ent A 0%nat 1%nat) (ent A 1%nat 1%nat) (ent A 2%nat 1%nat)
    (ent A 0%nat 2%nat) (ent A 1%nat 2%nat) (ent A 2%nat 2%nat)) as (x1 & x2 & x3 & x4 & x5 & x6);
    try (match goal with |- ent A _ ?i * ent A _ ?j + _ + _ = _ => exact (G i j ltac:(lia) ltac:(lia)) end).
  intros i j Hi Hj. cbn [tr ent sum]. ix3 i; ix3 j; cbn [Nat.eqb]; lra.
Qed.
Lemma sumd3 n (f : nat -> R) p : n = 3%nat -> (p < n)%nat -> sum n (fun k => (if Nat.eqb p k then 1 else 0) * f k) = f p.
Proof. intros -> H. ix3 p; cbn [sum Nat.eqb]; ring. Qed.
(** Turning and turning back. *)
Lemma turn_back A X p q : orthonormal A -> (p < 3)%nat -> (q < 3)%nat -> along_axes (tr A) (along_axes A X) p q = X p q.
Proof.
  intros O Hp Hq. destruct (tr_ortho A O) as (_ & _ & H). unfold along_axes.
  transitivity (sum 3 (fun k => sum 3 (fun l => sum 3 (fun i => ent A p i * ent A k i) * (sum 3 (fun j => ent A q j * ent A l j) * X k l)))).
  { cbn [sum tr ent]. ring. }
  transitivity (sum 3 (fun k => (if Nat.eqb p k then 1 else 0) * X k q)).
  2: apply (sumd3 3 (fun k => X k q)); auto.
  apply sum_ext. intros k Hk.
  transitivity (sum 3 (fun l => (if Nat.eqb q l then 1 else 0) * ((if Nat.eqb p k then 1 else 0) * X k l))).
  2: apply (sumd3 3 (fun l => (if Nat.eqb p k then 1 else 0) * X k l)); auto.
  apply sum_ext. intros l Hl. rewrite <- (H q l), <- (H p k) by auto. cbn [tr ent]. ring.
Qed.
Lemma along_ext A X Y i j : (forall k l, (k < 3)%nat -> (l < 3)%nat -> X k l = Y k l) -> along_axes A X i j = along_axes A Y i j.
Proof. intros H. apply sum_ext. intros k Hk. apply sum_ext. intros l Hl. rewrite H; auto. Qed.
Lemma tr_tr A : tr (tr A) = A.
Proof. destruct A. reflexivity. Qed.
Lemma turn_back' A X p q : orthonormal A -> (p < 3)%nat -> (q < 3)%nat -> along_axes A (along_axes (tr A) X) p q = X p q.
Proof. intros O Hp Hq. pose proof (turn_back (tr A) X p q (tr_ortho A O) Hp Hq) as H. rewrite tr_tr in H. exact H. Qed.

(** The transformation matrix. *)
Definition TT (A : mat R) (i j : nat) : R :=
  if Nat.ltb j 3 then ent A (id1 i) (id1 j) * ent A (id2 i) (id2 j)
  else ent A (id1 i) (id1 j) * ent A (id2 i) (id2 j) + ent A (id2 i) (id1 j) * ent A (id1 i) (id2 j).
Lemma tmat_eq A : rows A = 3%nat -> cols A = 3%nat -> tmat (tr A) = Ok (mkMat 6 6 (TT A)).
Proof. intros Hr Hc. unfold tmat, has33, tr. cbn [rows cols ent]. rewrite Hr, Hc. reflexivity. Qed.
Definition dTT (A dA : mat R) (i j : nat) : R :=
  if Nat.ltb j 3 then ent dA (id1 i) (id1 j) * ent A (id2 i) (id2 j) + ent A (id1 i) (id1 j) * ent dA (id2 i) (id2 j)
  else ent dA (id1 i) (id1 j) * ent A (id2 i) (id2 j) + ent A (id1 i) (id1 j) * ent dA (id2 i) (id2 j)
       + ent dA (id2 i) (id1 j) * ent A (id1 i) (id2 j) + ent A (id2 i) (id1 j) * ent dA (id1 i) (id2 j).
Lemma tmat_sens_eq A dA : rows A = 3%nat -> cols A = 3%nat -> rows dA = 3%nat -> cols dA = 3%nat ->
  tmat_sens (tr A) (tr dA) = Ok (mkMat 6 6 (dTT A dA)).
Proof. intros Hr Hc Hr' Hc'. unfold tmat_sens, has33, tr. cbn [rows cols ent]. rewrite Hr, Hc, Hr', Hc'. reflexivity. Qed.

Lemma local_strain_T A e e' : local_strain A e e' -> forall j, (j < 6)%nat -> e' j = sum 6 (fun i => TT A i j * e i).
Proof.
  intros H j Hj. unfold local_strain, strain_tensor, along_axes in H.
  ix6 j; [pose proof (H 0%nat 0%nat ltac:(lia) ltac:(lia)) as Q|pose proof (H 1%nat 1%nat ltac:(lia) ltac:(lia)) as Q|pose proof (H 2%nat 2%nat ltac:(lia) ltac:(lia)) as Q
    |pose proof (H 0%nat 1%nat ltac:(lia) ltac:(lia)) as Q|pose proof (H 1%nat 2%nat ltac:(lia) ltac:(lia)) as Q|pose proof (H 2%nat 0%nat ltac:(lia) ltac:(lia)) as Q];
    clear H; unfold TT; cbn [Nat.eqb comp sum Nat.ltb Nat.leb id1 id2] in *.
  1,2,3: rewrite Q; field.
  all: match goal with |- ?x = _ => transitivity (2 * (x / 2)); [field|rewrite Q; field] end.
Qed.
Lemma local_stress_T A s s' : orthonormal A -> local_stress A s s' -> forall i, (i < 6)%nat -> s i = sum 6 (fun j => TT A i j * s' j).
Proof.
  intros O H i Hi.
  assert (Q : forall p q, (p < 3)%nat -> (q < 3)%nat -> stress_tensor s p q = along_axes (tr A) (stress_tensor s') p q).
  { intros p q Hp Hq. rewrite <- (turn_back A (stress_tensor s) p q O Hp Hq). apply along_ext. intros k l Hk Hl. symmetry. auto. }
  clear H. unfold stress_tensor, along_axes in Q.
  ix6 i; [specialize (Q 0%nat 0%nat ltac:(lia) ltac:(lia))|specialize (Q 1%nat 1%nat ltac:(lia) ltac:(lia))|specialize (Q 2%nat 2%nat ltac:(lia) ltac:(lia))
    |specialize (Q 0%nat 1%nat ltac:(lia) ltac:(lia))|specialize (Q 1%nat 2%nat ltac:(lia) ltac:(lia))|specialize (Q 2%nat 0%nat ltac:(lia) ltac:(lia))];
    unfold TT; cbn [Nat.eqb comp sum Nat.ltb Nat.leb id1 id2 tr ent] in *; rewrite Q; ring.
Qed.
Lemma T_local_stress A s y : orthonormal A -> (forall i, (i < 6)%nat -> s i = sum 6 (fun j => TT A i j * y j)) -> local_stress A s y.
Proof.
  intros O H p q Hp Hq. rewrite <- (turn_back' A (stress_tensor y) p q O Hp Hq). apply along_ext. intros k l Hk Hl.
  unfold stress_tensor at 2. unfold along_axes.
  ix3 k; ix3 l; cbn [comp]; rewrite H by lia; unfold TT, stress_tensor; cbn [Nat.eqb comp sum Nat.ltb Nat.leb id1 id2 tr ent]; ring.
Qed.
Lemma local_stress_unique A s y y' : local_stress A s y -> local_stress A s y' -> forall i, (i < 6)%nat -> y i = y' i.
Proof.
  intros H H' i Hi. unfold local_stress, stress_tensor in *.
  ix6 i; [specialize (H 0%nat 0%nat ltac:(lia) ltac:(lia)); specialize (H' 0%nat 0%nat ltac:(lia) ltac:(lia))
    |specialize (H 1%nat 1%nat ltac:(lia) ltac:(lia)); specialize (H' 1%nat 1%nat ltac:(lia) ltac:(lia))
    |specialize (H 2%nat 2%nat ltac:(lia) ltac:(lia)); specialize (H' 2%nat 2%nat ltac:(lia) ltac:(lia))
    |specialize (H 0%nat 1%nat ltac:(lia) ltac:(lia)); specialize (H' 0%nat 1%nat ltac:(lia) ltac:(lia))
    |specialize (H 1%nat 2%nat ltac:(lia) ltac:(lia)); specialize (H' 1%nat 2%nat ltac:(lia) ltac:(lia))
    |specialize (H 2%nat 0%nat ltac:(lia) ltac:(lia)); specialize (H' 2%nat 0%nat ltac:(lia) ltac:(lia))];
    cbn [comp] in H, H'; congruence.
Qed.

(** The product of three matrices. *)
Lemma mul3_eq (r n m c : nat) f g h : mul3 (mkMat r n f) (mkMat n m g) (mkMat m c h) =
  Ok (mkMat r c (fun i j => sum m (fun b => sum n (fun a => f i a * g a b) * h b j))).
Proof. unfold mul3, mul. cbn [rows cols ent]. rewrite Nat.eqb_refl. cbn [assert_ bind rows cols ent]. rewrite Nat.eqb_refl. reflexivity. Qed.
Lemma eta (m : mat R) r c : rows m = r -> cols m = c -> m = mkMat r c (ent m).
Proof. destruct m; cbn. intros -> ->. reflexivity. Qed.
Definition SK (A C : mat R) (i j : nat) : R := sum 6 (fun b => sum 6 (fun a => TT A i a * ent C a b) * TT A j b).
Lemma stiff_eq A C : rows A = 3%nat -> cols A = 3%nat -> rows C = 6%nat -> cols C = 6%nat -> stiff C A = Ok (mkMat 6 6 (SK A C)).
Proof.
  intros Hr Hc Cr Cc. unfold stiff. rewrite tmat_eq by auto. cbn [bind]. rewrite (eta C 6 6) at 1 by auto.
  unfold tr; cbn [rows cols ent]. rewrite mul3_eq. reflexivity.
Qed.
Lemma SK_apply A C e i : sum 6 (fun j => SK A C i j * e j) = sum 6 (fun a => TT A i a * sum 6 (fun b => ent C a b * sum 6 (fun j => TT A j b * e j))).
Proof.
  unfold SK.
  transitivity (sum 6 (fun j => sum 6 (fun b => sum 6 (fun a => TT A i a * ent C a b * TT A j b * e j)))).
  { apply sum_ext; intros j _. rewrite <- sum_scal_r. apply sum_ext; intros b _. rewrite <- !sum_scal_r. apply sum_ext; intros a _. reflexivity. }
  transitivity (sum 6 (fun a => sum 6 (fun b => sum 6 (fun j => TT A i a * ent C a b * TT A j b * e j)))).
  { transitivity (sum 6 (fun j => sum 6 (fun a => sum 6 (fun b => TT A i a * ent C a b * TT A j b * e j)))).
    { apply sum_ext; intros j _. apply sum_swap. }
    rewrite sum_swap. apply sum_ext; intros a _. apply sum_swap. }
  apply sum_ext; intros a _. rewrite <- sum_scal_l. apply sum_ext; intros b _. rewrite <- !sum_scal_l. apply sum_ext; intros j _. ring.
Qed.
Lemma stiff_turned A C : orthonormal A -> turned_stiffness A C (mkMat 6 6 (SK A C)).
Proof.
  intros O e s e' s' He Hs. pose proof (local_strain_T _ _ _ He) as Te. pose proof (local_stress_T _ _ _ O Hs) as Ts.
  assert (E : forall i, sum 6 (fun j => SK A C i j * e j) = sum 6 (fun a => TT A i a * sum 6 (fun b => ent C a b * e' b))).
  { intros i. rewrite SK_apply. apply sum_ext; intros a _. f_equal. apply sum_ext; intros b Hb. rewrite (Te b Hb). reflexivity. }
  unfold applies. cbn [ent]. split.
  - intros H. apply (local_stress_unique A s); [exact Hs|]. apply T_local_stress; auto.
    intros i Hi. rewrite (H i Hi), E. reflexivity.
  - intros H i Hi. rewrite E, (Ts i Hi). apply sum_ext; intros a Ha. f_equal. auto.
Qed.
Definition loc_strain (A : mat R) (e : vec) : vec := fun j => sum 6 (fun i => TT A i j * e i).
Lemma loc_strain_ok A e : local_strain A e (loc_strain A e).
Proof.
  intros i j Hi Hj. unfold strain_tensor at 1. unfold loc_strain, along_axes, strain_tensor.
  ix3 i; ix3 j; unfold TT; cbn [Nat.eqb comp sum Nat.ltb Nat.leb id1 id2]; field.
Qed.
Lemma loc_strain_zero A e : orthonormal A -> (forall j, (j < 6)%nat -> loc_strain A e j = 0) -> forall i, (i < 6)%nat -> e i = 0.
Proof.
  intros O Z i Hi. pose proof (loc_strain_ok A e) as L.
  assert (Q : forall p q, (p < 3)%nat -> (q < 3)%nat -> strain_tensor e p q = 0).
  { intros p q Hp Hq. rewrite <- (turn_back A (strain_tensor e) p q O Hp Hq). unfold along_axes at 1.
    apply sum_0. intros k Hk. apply sum_0. intros l Hl. rewrite <- (L k l Hk Hl). unfold strain_tensor.
    rewrite Z by (destruct k as [|[|[|]]]; destruct l as [|[|[|]]]; cbn; lia). destruct (Nat.eqb k l); lra. }
  unfold strain_tensor in Q.
  ix6 i; [specialize (Q 0%nat 0%nat ltac:(lia) ltac:(lia))|specialize (Q 1%nat 1%nat ltac:(lia) ltac:(lia))|specialize (Q 2%nat 2%nat ltac:(lia) ltac:(lia))
    |specialize (Q 0%nat 1%nat ltac:(lia) ltac:(lia))|specialize (Q 1%nat 2%nat ltac:(lia) ltac:(lia))|specialize (Q 2%nat 0%nat ltac:(lia) ltac:(lia))];
    cbn [Nat.eqb comp] in Q; lra.
Qed.
Lemma stiff_elastic A C : orthonormal A -> elastic C 6 -> elastic (mkMat 6 6 (SK A C)) 6.
Proof.
  intros O (Cr & Cc & Cs & Cp). split; [reflexivity|]. split; [reflexivity|]. split.
  - intros i j Hi Hj. cbn [ent]. unfold SK.
    transitivity (sum 6 (fun b => sum 6 (fun a => TT A i a * ent C a b * TT A j b))).
    { apply sum_ext; intros b _. rewrite <- sum_scal_r. reflexivity. }
    rewrite sum_swap. apply sum_ext; intros a Ha. rewrite <- sum_scal_r. apply sum_ext; intros b Hb. rewrite (Cs a b) by auto. ring.
  - intros x (i & Hi & Hx). cbn [ent].
    replace (sum 6 (fun i => sum 6 (fun j => x i * (SK A C i j * x j)))) with (sum 6 (fun a => sum 6 (fun b => loc_strain A x a * (ent C a b * loc_strain A x b)))).
    + apply Cp. assert (D : (forall j, (j < 6)%nat -> loc_strain A x j = 0) \/ exists j, (j < 6)%nat /\ loc_strain A x j <> 0).
      { set (f := loc_strain A x). clearbody f. generalize 6%nat. induction n as [|n [IH|(j & Hj & IH)]]; [left; intros; lia| |right; exists j; split; [lia|auto]].
        destruct (Req_dec (f n) 0) as [E|E]; [left|right; exists n; split; [lia|auto]].
        intros j Hj. destruct (Nat.eq_dec j n) as [->|]; auto. apply IH. lia. }
      destruct D as [D|D]; [|exact D]. exfalso. apply Hx. apply (loc_strain_zero A x O D i Hi).
    + symmetry. transitivity (sum 6 (fun i => x i * sum 6 (fun j => SK A C i j * x j))).
      { apply sum_ext; intros k _. rewrite <- sum_scal_l. reflexivity. }
      transitivity (sum 6 (fun i => sum 6 (fun a => x i * TT A i a * sum 6 (fun b => ent C a b * loc_strain A x b)))).
      { apply sum_ext; intros k _. rewrite SK_apply. rewrite <- sum_scal_l. apply sum_ext; intros a _. unfold loc_strain. ring. }
      rewrite sum_swap. apply sum_ext; intros a _. rewrite sum_scal_r.
      replace (sum 6 (fun k => x k * TT A k a)) with (loc_strain A x a) by (unfold loc_strain; apply sum_ext; intros; ring).
      rewrite <- sum_scal_l. reflexivity.
Qed.

(** ** Derivatives *)
Lemma is_derive_sum n (f : R -> nat -> R) (t : R) (d : nat -> R) :
  (forall k, (k < n)%nat -> is_derive (fun s => f s k) t (d k)) -> is_derive (fun s => sum n (f s)) t (sum n d).
Proof.
  induction n as [|n IH]; intros H; cbn [sum]; [apply @is_derive_const|].
  apply (is_derive_plus (fun s => sum n (f s)) (fun s => f s n)); auto.
Qed.
Lemma is_derive_mul (f g : R -> R) (t a b : R) : is_derive f t a -> is_derive g t b -> is_derive (fun s => f s * g s) t (a * g t + f t * b).
Proof. intros F G. apply (is_derive_mult f g t a b F G). intros; apply Rmult_comm. Qed.
Lemma is_derive_eq (f : R -> R) (t a b : R) : is_derive f t a -> a = b -> is_derive f t b.
Proof. intros H <-. exact H. Qed.
Definition dv (M : R -> nat -> nat -> R) (t : R) (d : nat -> nat -> R) (r c : nat) : Prop :=
  forall i j, (i < r)%nat -> (j < c)%nat -> is_derive (fun s => M s i j) t (d i j).
(** Product rule for three factors. *)
Lemma dv_mul3 r n m c (F G H : R -> nat -> nat -> R) (t : R) dF dG dH : dv F t dF r n -> dv G t dG n m -> dv H t dH m c ->
  dv (fun s i j => sum m (fun b => sum n (fun a => F s i a * G s a b) * H s b j)) t
     (fun i j => sum m (fun b => sum n (fun a => dF i a * G t a b) * H t b j) +
                 sum m (fun b => sum n (fun a => F t i a * dG a b) * H t b j) +
                 sum m (fun b => sum n (fun a => F t i a * G t a b) * dH b j)) r c.
Proof.
  intros DF DG DH i j Hi Hj. eapply is_derive_eq.
  - apply (is_derive_sum m (fun s b => sum n (fun a => F s i a * G s a b) * H s b j) t
      (fun b => sum n (fun a => dF i a * G t a b + F t i a * dG a b) * H t b j + sum n (fun a => F t i a * G t a b) * dH b j)).
    intros b Hb. apply (is_derive_mul (fun s => sum n (fun a => F s i a * G s a b)) (fun s => H s b j)); [|apply DH; auto].
    apply (is_derive_sum n (fun s a => F s i a * G s a b) t (fun a => dF i a * G t a b + F t i a * dG a b)).
    intros a Ha. apply (is_derive_mul (fun s => F s i a) (fun s => G s a b)); [apply DF|apply DG]; auto.
  - rewrite <- !sum_plus. apply sum_ext; intros b _. rewrite sum_plus. ring.
Qed.
Lemma dv_TT (A : R -> mat R) (t : R) dA : dv (fun s => ent (A s)) t (ent dA) 3 3 -> dv (fun s => TT (A s)) t (dTT (A t) dA) 6 6.
Proof.
  intros D i j Hi Hj. unfold TT, dTT.
  assert (b1 : forall k, (id1 k < 3)%nat) by (intros [|[|[|[|[|]]]]]; cbn; lia).
  assert (b2 : forall k, (id2 k < 3)%nat) by (intros [|[|[|[|[|]]]]]; cbn; lia).
  assert (P : forall a b c d, (a < 3)%nat -> (b < 3)%nat -> (c < 3)%nat -> (d < 3)%nat ->
     is_derive (fun s => ent (A s) a b * ent (A s) c d) t (ent dA a b * ent (A t) c d + ent (A t) a b * ent dA c d)).
  { intros a b c d ? ? ? ?. apply (is_derive_mul (fun s => ent (A s) a b) (fun s => ent (A s) c d)); apply D; auto. }
  destruct (Nat.ltb j 3); [apply P; auto|]. eapply is_derive_eq.
  - apply (is_derive_plus (fun s => ent (A s) (id1 i) (id1 j) * ent (A s) (id2 i) (id2 j)) (fun s => ent (A s) (id2 i) (id1 j) * ent (A s) (id1 i) (id2 j))); apply P; auto.
  - cbn. unfold plus; cbn. ring.
Qed.
Lemma dv_tr F t d r c : dv F t d r c -> dv (fun s i j => F s j i) t (fun i j => d j i) c r.
Proof. intros H i j Hi Hj. apply (H j i); auto. Qed.
Definition matof (o : outcome (mat R)) : mat R := match o with Ok m => m | Fault _ => mkMat 0 0 (fun _ _ => 0) end.
Lemma entry_of o : entry o = ent (matof o).
Proof. destruct o; reflexivity. Qed.
Lemma deriv_dv (M : R -> outcome (mat R)) (t : R) D d : D = Ok d -> mat_deriv M t D ->
  dv (fun s => ent (matof (M s))) t (ent d) (rows d) (cols d) /\
  locally t (fun s => M s = Ok (matof (M s)) /\ rows (matof (M s)) = rows d /\ cols (matof (M s)) = cols d).
Proof.
  intros -> (d' & E & L & H). injection E as <-. split.
  - intros i j Hi Hj. apply is_derive_ext with (f := fun s => entry (M s) i j); [intros s; rewrite entry_of; reflexivity|]. apply H; auto.
  - revert L. apply filter_imp. intros s (m & -> & Hr & Hc). auto.
Qed.
Lemma dv_deriv (M : R -> outcome (mat R)) (t : R) r c F d D : locally t (fun s => M s = Ok (mkMat r c (F s))) -> dv F t d r c -> D = Ok (mkMat r c d) -> mat_deriv M t D.
Proof.
  intros E H ->. eexists. split; [reflexivity|]. split.
  - revert E. apply filter_imp. intros s ->. eexists. split; [reflexivity|]. split; reflexivity.
  - intros i j Hi Hj. cbn [ent rows cols] in *. apply is_derive_ext_loc with (f := fun s => F s i j); [|apply H; auto].
    revert E. apply filter_imp. intros s ->. reflexivity.
Qed.
Lemma add3_eq r c f g h : add3 (mkMat r c f) (mkMat r c g) (mkMat r c h) = Ok (mkMat r c (fun i j => f i j + g i j + h i j)).
Proof. unfold add3, madd. cbn [rows cols ent]. rewrite !Nat.eqb_refl. cbn [bind andb assert_ rows cols ent]. rewrite !Nat.eqb_refl. reflexivity. Qed.
Lemma mul3_eq' (r n m c : nat) A B C : rows A = r -> cols A = n -> rows B = n -> cols B = m -> rows C = m -> cols C = c ->
  mul3 A B C = Ok (mkMat r c (fun i j => sum m (fun b => sum n (fun a => ent A i a * ent B a b) * ent C b j))).
Proof. intros. rewrite (eta A r n), (eta B n m), (eta C m c) by auto. apply mul3_eq. Qed.

Lemma dTT_ok A t dA D : varies A t D -> D = Ok dA ->
  dv (fun s => TT (matof (A s))) t (dTT (matof (A t)) dA) 6 6 /\ rows dA = 3%nat /\ cols dA = 3%nat /\
  dv (fun s => ent (matof (A s))) t (ent dA) 3 3 /\
  locally t (fun s => A s = Ok (matof (A s)) /\ rows (matof (A s)) = 3%nat /\ cols (matof (A s)) = 3%nat).
Proof.
  intros (M & m & E & Hr & Hc) E'. rewrite E in E'. injection E' as <-. destruct (deriv_dv A t D m E M) as (V & L).
  rewrite Hr, Hc in *. split; [apply (dv_TT (fun s => matof (A s))); exact V|auto].
Qed.
