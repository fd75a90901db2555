From Coq Require Import Reals Lra.
From Coquelicot Require Import Coquelicot.
From Coq Require Import List Arith Bool Lia.
From Verif Require Import Base BaseLemmas Sens_Spec Sens_Proofs Sens_Proofs2 Heat_Proofs Solid_Model Solid_Spec.
Import ListNotations.
Open Scope R_scope.

Section P.
Variable n_phi : nat.
Variable nl : bool.

(** deformation gradient used by the strain: the identity for small strains *)
Definition Fd (q : qpt) (u : dofs) (i j : nat) : R := if nl then defgrad n_phi q u i j else delta i j.
(** derivative of the strain vector with respect to an unknown *)
Definition Bt (q : qpt) (u : dofs) (r c a : nat) : R :=
  if Nat.ltb r 3 then Fd q u c (row1 r) * dphi q a (row1 r)
  else Fd q u c (row1 r) * dphi q a (row2 r) + Fd q u c (row2 r) * dphi q a (row1 r).

Lemma sum0r n (f : nat -> R) : sum n (fun a => 0 * f a) = 0.
Proof. apply sum_0. intros; ring. Qed.
Ltac dof3 c := destruct c as [|[|[|c]]]; [| | |exfalso; lia].

Lemma vm_x q u i : (i < 3)%nat -> vector_mult n_phi (operator q [(0,0,0); (1,1,0); (2,2,0)]%nat) u i = grad n_phi q u i 0.
Proof.
  intros H. unfold vector_mult, grad. dof3 i; cbn [sum operator fold_left oset fst snd Nat.eqb andb]; rewrite ?sum0r;
  rewrite ?Rplus_0_l, ?Rplus_0_r; apply sum_ext; intros; ring.
Qed.
Lemma vm_y q u i : (i < 3)%nat -> vector_mult n_phi (operator q [(0,0,1); (1,1,1); (2,2,1)]%nat) u i = grad n_phi q u i 1.
Proof.
  intros H. unfold vector_mult, grad. dof3 i; cbn [sum operator fold_left oset fst snd Nat.eqb andb]; rewrite ?sum0r;
  rewrite ?Rplus_0_l, ?Rplus_0_r; apply sum_ext; intros; ring.
Qed.
Lemma vm_z q u i : (i < 3)%nat -> vector_mult n_phi (operator q [(0,0,2); (1,1,2); (2,2,2)]%nat) u i = grad n_phi q u i 2.
Proof.
  intros H. unfold vector_mult, grad. dof3 i; cbn [sum operator fold_left oset fst snd Nat.eqb andb]; rewrite ?sum0r;
  rewrite ?Rplus_0_l, ?Rplus_0_r; apply sum_ext; intros; ring.
Qed.
Lemma eps_eq q u r : (r < 6)%nat -> epsilon (green_lagrange n_phi nl q u) r = strain_vec nl n_phi q u r.
Proof.
  intros H. unfold strain_vec, strain, green_lagrange. destruct nl.
  - destruct r as [|[|[|[|[|[|r]]]]]]; [..|exfalso; lia]; cbn [epsilon sum row1 row2 Nat.ltb Nat.leb];
    rewrite ?vm_x, ?vm_y, ?vm_z by lia; unfold defgrad, delta; cbn [Nat.eqb]; field.
  - assert (G : forall i j, (j < 3)%nat -> sum n_phi (fun a => dphi q a j * u i a) = grad n_phi q u i j)
      by (intros; unfold grad; apply sum_ext; intros; ring).
    destruct r as [|[|[|[|[|[|r]]]]]]; [..|exfalso; lia]; cbn [epsilon row1 row2 Nat.ltb Nat.leb]; unfold vector_mult;
    cbn [sum operator fold_left oset fst snd Nat.eqb andb]; rewrite ?sum0r, ?G by lia; field.
Qed.

(** *** force of a stress vector at a point *)
Lemma add_force_eq w q u s f c a : add_force nl w (green_lagrange n_phi nl q u) s f c a =
  if Nat.ltb c 3 then f c a + w * sum 6 (fun r => Bt q u r c a * s r) else f c a.
Proof.
  destruct (Nat.ltb c 3) eqn:L; [|unfold add_force, addf; destruct nl; cbv zeta; rewrite L; reflexivity].
  unfold add_force, addf. assert (Hc : (c < 3)%nat) by now apply Nat.ltb_lt.
  unfold Bt, Fd, green_lagrange. destruct nl; cbv zeta; rewrite ?L; clear L.
  - cbn [B_lin B_x B_y B_z mat_x mat_y mat_z].
    unfold vector_mult_transpose, tmulv, with_rows. 
    dof3 c; cbn [sum fold_left fst snd Nat.eqb andb row1 row2 Nat.ltb Nat.leb];
    rewrite ?vm_x, ?vm_y, ?vm_z by lia; cbn [operator fold_left oset fst snd Nat.eqb andb]; unfold defgrad, delta; cbn [Nat.eqb]; ring.
  - cbn [B_lin]. unfold vector_mult_transpose.
    dof3 c; cbn [sum operator fold_left oset fst snd Nat.eqb andb row1 row2 Nat.ltb Nat.leb];
    unfold delta; cbn [Nat.eqb]; ring.
Qed.

(** *** stiffness at a point *)
Definition geo (q : qpt) (s : nat -> R) (c a d b : nat) : R :=
  delta c d * sum 3 (fun i => sum 3 (fun j => stress33 s i j * (dphi q a i * dphi q b j))).
Lemma add_geometric_eq w q u s j c a d b : nl = true -> (c < 3)%nat -> (d < 3)%nat ->
  add_geometric w (green_lagrange n_phi nl q u) s j c a d b = j c a d b + w * geo q s c a d b.
Proof.
  intros N Hc Hd. unfold add_geometric, addj, geo, green_lagrange. rewrite N. cbv zeta. cbn [B_u B_v B_w].
  destruct (Nat.ltb_spec c 3); [|lia]. destruct (Nat.ltb_spec d 3); [|lia]. cbn [andb].
  unfold right_multiply_transpose, left_multiply.
  dof3 c; dof3 d; cbn [sum operator fold_left oset fst snd Nat.eqb andb delta stress33]; unfold delta; cbn [Nat.eqb]; ring.
Qed.
Lemma add_geometric_out w g s j c a d b : (3 <= c \/ 3 <= d)%nat -> add_geometric w g s j c a d b = j c a d b.
Proof.
  intros H. unfold add_geometric, addj. destruct (Nat.ltb_spec c 3), (Nat.ltb_spec d 3); try lia; reflexivity.
Qed.

(** the total strain operator *)
Definition bsum (g : gl) (r c a : nat) : R :=
  B_lin g r c a + sum 3 (fun k => mat_x g r k * B_x g k c a) + sum 3 (fun k => mat_y g r k * B_y g k c a)
  + sum 3 (fun k => mat_z g r k * B_z g k c a).
Lemma bsum_eq q u r c a : (r < 6)%nat -> (c < 3)%nat -> bsum (green_lagrange n_phi nl q u) r c a = Bt q u r c a.
Proof.
  intros Hr Hc. unfold bsum, Bt, Fd, green_lagrange. destruct nl; cbv zeta; cbn [B_lin B_x B_y B_z mat_x mat_y mat_z]; unfold with_rows.
  - destruct r as [|[|[|[|[|[|r]]]]]]; [..|exfalso; lia];
    dof3 c; cbn [sum fold_left fst snd Nat.eqb andb row1 row2 Nat.ltb Nat.leb];
    rewrite ?vm_x, ?vm_y, ?vm_z by lia; cbn [operator fold_left oset fst snd Nat.eqb andb]; unfold defgrad, delta; cbn [Nat.eqb]; ring.
  - destruct r as [|[|[|[|[|[|r]]]]]]; [..|exfalso; lia];
    dof3 c; cbn [sum operator fold_left oset fst snd Nat.eqb andb row1 row2 Nat.ltb Nat.leb];
    unfold delta; cbn [Nat.eqb]; ring.
Qed.
Lemma add_nl_eq w g A j c a d b : (c < 3)%nat -> (d < 3)%nat -> add_nl w g A j c a d b =
  j c a d b + w * sum 6 (fun r => (bsum g r c a - B_lin g r c a) * A r d b).
Proof.
  intros Hc Hd. unfold add_nl, addj, bsum. destruct (Nat.ltb_spec c 3); [|lia]. destruct (Nat.ltb_spec d 3); [|lia]. cbn [andb].
  unfold right_multiply_transpose, tmulm. cbn [sum]. ring.
Qed.
Lemma add_dim_eq w g C B M j c a d b : (c < 3)%nat -> (d < 3)%nat -> add_dim w g C B M j c a d b =
  j c a d b + w * sum 6 (fun r => bsum g r c a * sum 6 (fun s => C r s * sum 3 (fun k => M s k * B k d b))).
Proof.
  intros Hc Hd. unfold add_dim. rewrite add_nl_eq by auto. unfold addj. destruct (Nat.ltb_spec c 3); [|lia]. destruct (Nat.ltb_spec d 3); [|lia]. cbn [andb].
  unfold right_multiply_transpose. rewrite Rplus_assoc, <- Rmult_plus_distr_l, <- sum_plus. f_equal. f_equal. apply sum_ext. intros r _.
  assert (E : mulm C (left_multiply 3 B M) r d b = sum 6 (fun s => C r s * sum 3 (fun k => M s k * B k d b))).
  { unfold mulm, left_multiply. apply sum_ext. intros s _. f_equal. apply sum_ext. intros; ring. }
  rewrite E. ring.
Qed.
Lemma add_dim_out w g C B M j c a d b : (3 <= c \/ 3 <= d)%nat -> add_dim w g C B M j c a d b = j c a d b.
Proof. intros H. unfold add_dim, add_nl, addj. destruct (Nat.ltb_spec c 3), (Nat.ltb_spec d 3); try lia; reflexivity. Qed.
Lemma add_nl_out w g A j c a d b : (3 <= c \/ 3 <= d)%nat -> add_nl w g A j c a d b = j c a d b.
Proof. intros H. unfold add_nl, addj. destruct (Nat.ltb_spec c 3), (Nat.ltb_spec d 3); try lia; reflexivity. Qed.
Lemma addj_out w m j c a d b : (3 <= c \/ 3 <= d)%nat -> addj w m j c a d b = j c a d b.
Proof. intros H. unfold addj. destruct (Nat.ltb_spec c 3), (Nat.ltb_spec d 3); try lia; reflexivity. Qed.

Definition stress_at (C : nat -> nat -> R) (q : qpt) (u : dofs) (r : nat) : R := stress_vec C (strain_vec nl n_phi q u) r.
Definition stiff (C : qpt -> nat -> nat -> R) (u : dofs) (c a d b : nat) (q : qpt) : R :=
  sum 6 (fun r => Bt q u r c a * sum 6 (fun s => C q r s * Bt q u s d b))
  + (if nl then geo q (stress_at (C q) q u) c a d b else 0).
Lemma sig_eq C q u r : sum 6 (fun k => C q r k * epsilon (green_lagrange n_phi nl q u) k) = stress_at (C q) q u r.
Proof. unfold stress_at, stress_vec. apply sum_ext. intros k Hk. now rewrite eps_eq. Qed.
Lemma geo_ext q s s' c a d b : (forall r, (r < 6)%nat -> s r = s' r) -> geo q s c a d b = geo q s' c a d b.
Proof.
  intros H. unfold geo. f_equal. apply sum_ext. intros i Hi. apply sum_ext. intros j Hj. f_equal.
  dof3 i; dof3 j; cbn [stress33]; apply H; lia.
Qed.
Lemma internal_qp_f C u req f j q c a : fst (internal_qp n_phi nl C u req (f, j) q) c a =
  if Nat.ltb c 3 then f c a + jxw q * sum 6 (fun r => Bt q u r c a * stress_at (C q) q u r) else f c a.
Proof.
  transitivity (add_force nl (jxw q) (green_lagrange n_phi nl q u)
     (fun r => sum 6 (fun k => C q r k * epsilon (green_lagrange n_phi nl q u) k)) f c a).
  - unfold internal_qp. destruct req, nl; reflexivity.
  - rewrite add_force_eq. destruct (Nat.ltb c 3); [|reflexivity]. f_equal. f_equal. apply sum_ext. intros r Hr. now rewrite sig_eq.
Qed.
Lemma internal_qp_j C u f j q c a d b : (c < 3)%nat -> (d < 3)%nat ->
  snd (internal_qp n_phi nl C u true (f, j) q) c a d b = j c a d b + jxw q * stiff C u c a d b q.
Proof.
  intros Hc Hd. unfold internal_qp, stiff. set (g := green_lagrange n_phi nl q u).
  set (s := fun r => sum 6 (fun k => C q r k * epsilon g k)).
  set (A := left_multiply 6 (B_lin g) (C q)).
  assert (HA : forall r, A r d b = sum 6 (fun k => C q r k * B_lin g k d b)).
  { intros r. unfold A, left_multiply. apply sum_ext. intros; ring. }
  assert (L : forall j c', (c' < 3)%nat -> addj (jxw q) (right_multiply_transpose 6 (B_lin g) A) j c' a d b =
            j c' a d b + jxw q * sum 6 (fun r => B_lin g r c' a * sum 6 (fun k => C q r k * B_lin g k d b))).
  { intros j0 c' Hc'. unfold addj. destruct (Nat.ltb_spec c' 3); [|lia]. destruct (Nat.ltb_spec d 3); [|lia]. cbn [andb].
    unfold right_multiply_transpose. f_equal. f_equal. apply sum_ext. intros r _. now rewrite HA. }
  destruct nl eqn:N.
  - cbn [snd]. unfold g at 1. rewrite <- N at 1. rewrite add_geometric_eq by auto. fold g. rewrite !add_dim_eq, add_nl_eq, L by auto.
    rewrite (geo_ext q s (stress_at (C q) q u)) by (intros r _; unfold s, g; rewrite <- sig_eq; rewrite N; reflexivity).
    assert (E : sum 6 (fun r => Bt q u r c a * sum 6 (fun s0 => C q r s0 * Bt q u s0 d b)) =
                sum 6 (fun r => bsum g r c a * sum 6 (fun s0 => C q r s0 * bsum g s0 d b))).
    { apply sum_ext. intros r Hr. unfold g. rewrite <- N, bsum_eq by auto. f_equal. apply sum_ext. intros s0 Hs. now rewrite bsum_eq. }
    rewrite E. rewrite (sum_ext 6 (fun r => (bsum g r c a - B_lin g r c a) * A r d b)
        (fun r => (bsum g r c a - B_lin g r c a) * sum 6 (fun k => C q r k * B_lin g k d b))) by (intros; now rewrite HA).
    set (G := geo q _ c a d b).
    assert (D : sum 6 (fun r => bsum g r c a * sum 6 (fun s0 => C q r s0 * bsum g s0 d b)) =
      sum 6 (fun r => B_lin g r c a * sum 6 (fun k => C q r k * B_lin g k d b))
      + sum 6 (fun r => (bsum g r c a - B_lin g r c a) * sum 6 (fun k => C q r k * B_lin g k d b))
      + sum 6 (fun r => bsum g r c a * sum 6 (fun s => C q r s * sum 3 (fun k => mat_x g s k * B_x g k d b)))
      + sum 6 (fun r => bsum g r c a * sum 6 (fun s => C q r s * sum 3 (fun k => mat_y g s k * B_y g k d b)))
      + sum 6 (fun r => bsum g r c a * sum 6 (fun s => C q r s * sum 3 (fun k => mat_z g s k * B_z g k d b)))).
    { rewrite <- !sum_plus. apply sum_ext. intros r _.
      transitivity (bsum g r c a * (sum 6 (fun k => C q r k * B_lin g k d b) + sum 6 (fun s => C q r s * sum 3 (fun k => mat_x g s k * B_x g k d b))
         + sum 6 (fun s => C q r s * sum 3 (fun k => mat_y g s k * B_y g k d b)) + sum 6 (fun s => C q r s * sum 3 (fun k => mat_z g s k * B_z g k d b)))); [|ring].
      f_equal. rewrite <- !sum_plus. apply sum_ext. intros s0 _. unfold bsum. ring. }
    rewrite D. ring.
  - cbn [snd]. rewrite L by auto. f_equal. f_equal. rewrite Rplus_0_r. apply sum_ext. intros r Hr.
    assert (E : forall r c a, (r < 6)%nat -> (c < 3)%nat -> Bt q u r c a = B_lin g r c a).
    { intros r0 c0 a0 H1 H2. rewrite <- bsum_eq by auto. unfold g, bsum. rewrite N. unfold green_lagrange. cbn [B_lin B_x B_y B_z mat_x mat_y mat_z sum]. ring. }
    rewrite E by auto. f_equal. apply sum_ext. intros s0 Hs. now rewrite E.
Qed.
Lemma internal_qp_out C u req f j q c a d b : (3 <= c \/ 3 <= d)%nat ->
  snd (internal_qp n_phi nl C u req (f, j) q) c a d b = j c a d b.
Proof.
  intros H. unfold internal_qp. destruct req; [|reflexivity]. destruct nl; cbn [snd].
  - now rewrite add_geometric_out, !add_dim_out, add_nl_out, addj_out.
  - now rewrite addj_out.
Qed.
Lemma internal_qp_not C u f j q : snd (internal_qp n_phi nl C u false (f, j) q) = j.
Proof. reflexivity. Qed.
End P.
