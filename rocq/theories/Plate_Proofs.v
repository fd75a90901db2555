From Coq Require Import Reals Lra.
From Coquelicot Require Import Coquelicot.
From Coq Require Import List Arith Bool Lia.
From Verif Require Import Base BaseLemmas Sens_Spec Sens_Proofs Sens_Proofs2 Heat_Proofs Solid_Model Solid_Spec Solid_Proofs2 Dof6_Model Dof6_Proofs Beam_Spec Beam_Proofs Beam_Proofs2 Plate_Model Plate_Spec.
Import ListNotations.
Open Scope R_scope.

Lemma pscal_sum m s (f v : nat -> R) : sum m (fun a => pscal s f a * v a) = s * sum m (fun a => f a * v a).
Proof. rewrite <- sum_scal_l. apply sum_ext. intros; unfold pscal; ring. Qed.
Lemma vm_mm n k A (M : rmat) u r : vm n (mm k A M) u r = sum k (fun i => A r i * vm n M u i).
Proof. exact (vm_lm n k M A u r). Qed.

(** *** the triangle *)
Section T.
Variable P : nat -> nat -> R.
Hypothesis H : ccw P.
Lemma sqrt_self x : 0 <= x -> sqrt (x * x) = x.
Proof. intros. rewrite sqrt_square; auto. Qed.
Lemma normal_z : let v3 := vcross (vsub (P 1%nat) (P 0%nat)) (vsub (P 2%nat) (P 0%nat)) in
  vdiv v3 (vnorm v3) 0%nat = 0 /\ vdiv v3 (vnorm v3) 1%nat = 0 /\ vdiv v3 (vnorm v3) 2%nat = 1.
Proof.
  destruct H as (H1 & H2 & H3). cbv zeta. unfold vdiv, vnorm, vcross, vsub.
  rewrite H1, H2.
  set (A := (P 1%nat 0%nat - P 0%nat 0%nat) * (P 2%nat 1%nat - P 0%nat 1%nat) - (P 1%nat 1%nat - P 0%nat 1%nat) * (P 2%nat 0%nat - P 0%nat 0%nat)) in *.
  replace (sqrt _) with A.
  - split; [|split]; field; lra.
  - transitivity (sqrt (A * A)); [symmetry; apply sqrt_self; lra|]. f_equal. unfold A. ring.
Qed.
Lemma edge_eq i j : P i 2%nat = P j 2%nat -> let ex := P j 0%nat - P i 0%nat in let ey := P j 1%nat - P i 1%nat in
  edge_length P i j = sqrt (ex ^ 2 + ey ^ 2) /\ edge_normal P i j = (- ex / sqrt (ex ^ 2 + ey ^ 2), ey / sqrt (ex ^ 2 + ey ^ 2)).
Proof.
  intros Hz ex ey. destruct normal_z as (N0 & N1 & N2). split.
  - unfold edge_length, vnorm, vsub. f_equal. fold ex ey. rewrite Hz. ring.
  - unfold edge_normal. cbv zeta.
    set (v1 := vdiv _ (vnorm (vcross (vsub (P 1%nat) (P 0%nat)) (vsub (P 2%nat) (P 0%nat))))) in *.
    unfold vdiv at 1 2. 
    assert (E : vnorm (vcross (vsub (P j) (P i)) v1) = sqrt (ex ^ 2 + ey ^ 2)).
    { unfold vnorm, vcross, vsub. rewrite N0, N1, N2. fold ex ey. rewrite Hz. f_equal. ring. }
    rewrite E. unfold vcross, vsub. rewrite N0, N1, N2. fold ex ey. f_equal; f_equal; ring.
Qed.
Lemma edge_pos : (0 < (P 1%nat 0%nat - P 0%nat 0%nat) ^ 2 + (P 1%nat 1%nat - P 0%nat 1%nat) ^ 2) /\
  (0 < (P 2%nat 0%nat - P 1%nat 0%nat) ^ 2 + (P 2%nat 1%nat - P 1%nat 1%nat) ^ 2) /\
  (0 < (P 0%nat 0%nat - P 2%nat 0%nat) ^ 2 + (P 0%nat 1%nat - P 2%nat 1%nat) ^ 2).
Proof.
  destruct H as (_ & _ & H3).
  assert (G : forall x y a b k : R, 0 < k -> k = a * y - b * x \/ k = b * x - a * y -> 0 < x ^ 2 + y ^ 2).
  { intros x y a b k Hk E. destruct (Req_dec x 0) as [->|]; destruct (Req_dec y 0) as [->|]; try nra. all: exfalso; destruct E; nra. }
  split; [|split].
  - apply (G _ _ (P 2%nat 0%nat - P 0%nat 0%nat) (P 2%nat 1%nat - P 0%nat 1%nat) _ H3). right. ring.
  - apply (G _ _ (P 1%nat 0%nat - P 0%nat 0%nat) (P 1%nat 1%nat - P 0%nat 1%nat) _ H3). left. ring.
  - apply (G _ _ (P 1%nat 0%nat - P 0%nat 0%nat) (P 1%nat 1%nat - P 0%nat 1%nat) _ H3). right. ring.
Qed.
(** the product of the DKT shape functions with the unknowns of the element is the interpolation of the rotations *)
Definition dkt_dot (v : nat -> R) (u : dofs) : R :=
  sum 3 (fun a => v a * u 2%nat a) + sum 3 (fun a => v (3 + a)%nat * u 3%nat a) + sum 3 (fun a => v (6 + a)%nat * u 4%nat a).
Lemma mid_eq i j u k (l s c : R) : let ex := P j 0%nat - P i 0%nat in let ey := P j 1%nat - P i 1%nat in
  l = sqrt (ex ^ 2 + ey ^ 2) -> 0 < ex ^ 2 + ey ^ 2 -> s = - ex / l -> c = ey / l ->
  mid_beta P i j u k = match k with
    | O => 3/2 * s / l * (u 2%nat j - u 2%nat i) - 3/4 * s * c * (u 3%nat i + u 3%nat j) + (1/2 * c * c - 1/4 * s * s) * (u 4%nat i + u 4%nat j)
    | _ => - (3/2) * c / l * (u 2%nat j - u 2%nat i) + (1/4 * c * c - 1/2 * s * s) * (u 3%nat i + u 3%nat j) + 3/4 * s * c * (u 4%nat i + u 4%nat j) end.
Proof.
  intros ex ey Hl Hp -> ->. unfold mid_beta, node_beta. fold ex ey. rewrite <- Hl.
  assert (L : 0 < l) by (rewrite Hl; now apply sqrt_lt_R0).
  destruct k as [|k]; field; lra.
Qed.
Lemma dkt_eq phi u : dkt_dot (fst (dkt_shape P phi)) u = sum 6 (fun m => phi m * dkt_beta P u m 0) /\
  dkt_dot (snd (dkt_shape P phi)) u = sum 6 (fun m => phi m * dkt_beta P u m 1).
Proof.
  destruct H as (Z1 & Z2 & _). destruct edge_pos as (P1 & P2 & P3).
  destruct (edge_eq 0 1 ltac:(lra)) as [L6 N6]. destruct (edge_eq 1 2 ltac:(lra)) as [L4 N4]. destruct (edge_eq 2 0 ltac:(lra)) as [L5 N5].
  unfold dkt_shape. rewrite L4, L5, L6, N4, N5, N6. cbn [fst snd].
  unfold dkt_dot. cbn [sum Nat.add dkt_beta].
  rewrite !(mid_eq 0 1 u _ _ _ _ eq_refl P1 eq_refl eq_refl), !(mid_eq 1 2 u _ _ _ _ eq_refl P2 eq_refl eq_refl), !(mid_eq 2 0 u _ _ _ _ eq_refl P3 eq_refl eq_refl).
  unfold node_beta.
  apply sqrt_lt_R0 in P1, P2, P3.
  set (l6 := sqrt ((P 1%nat 0%nat - P 0%nat 0%nat) ^ 2 + _)) in *. set (l4 := sqrt ((P 2%nat 0%nat - P 1%nat 0%nat) ^ 2 + _)) in *. set (l5 := sqrt ((P 0%nat 0%nat - P 2%nat 0%nat) ^ 2 + _)) in *.
  split; field; lra.
Qed.
End T.
