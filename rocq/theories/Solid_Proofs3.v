From Coq Require Import Reals Lra.
From Coquelicot Require Import Coquelicot.
From Coq Require Import List Arith Bool Lia.
From Verif Require Import Base BaseLemmas Sens_Spec Sens_Proofs Sens_Proofs2 Heat_Proofs Solid_Model Solid_Spec Solid_Proofs Solid_Proofs2.
Import ListNotations.
Open Scope R_scope.

Lemma hist_shift n u v : history n 0 (shift u v) v.
Proof.
  intros c a _ _. unfold shift. apply (der_ext (fun t => u c a + v c a * t) _ 0 (0 + v c a * 1)); [intros; ring|ring|].
  apply der_plus; [apply (der_const (u c a))|apply der_scal, @is_derive_id].
Qed.
Lemma shift_0 u v c a : shift u v 0 c a = u c a.
Proof. unfold shift. ring. Qed.
Section E.
Variable n : nat.
Variable nl : bool.
Lemma grad_ext q u v i j : (forall c a, u c a = v c a) -> grad n q u i j = grad n q v i j.
Proof. intros H. unfold grad. apply sum_ext. intros; now rewrite H. Qed.
Lemma defgrad_ext q u v i j : (forall c a, u c a = v c a) -> defgrad n q u i j = defgrad n q v i j.
Proof. intros H. unfold defgrad. now rewrite (grad_ext q u v). Qed.
Lemma strain_ext q u v i j : (forall c a, u c a = v c a) -> strain nl n q u i j = strain nl n q v i j.
Proof.
  intros H. unfold strain. destruct nl; [|now rewrite !(grad_ext q u v)]. f_equal. f_equal. apply sum_ext. intros. now rewrite !(defgrad_ext q u v).
Qed.
Lemma strain_vec_ext q u v r : (forall c a, u c a = v c a) -> strain_vec nl n q u r = strain_vec nl n q v r.
Proof. intros H. unfold strain_vec. now rewrite (strain_ext q u v). Qed.
Lemma Bt_ext q u v r c a : (forall c a, u c a = v c a) -> Bt n nl q u r c a = Bt n nl q v r c a.
Proof.
  intros H. assert (F : forall i j, Fd n nl q u i j = Fd n nl q v i j) by (intros; unfold Fd; now rewrite (defgrad_ext q u v)).
  unfold Bt. now rewrite !F.
Qed.
Lemma stress_at_ext C q u v r : (forall c a, u c a = v c a) -> stress_at n nl C q u r = stress_at n nl C q v r.
Proof. intros H. unfold stress_at, stress_vec. apply sum_ext. intros. now rewrite (strain_vec_ext q u v). Qed.
Lemma force_ext C u v c a q : (forall c a, u c a = v c a) -> force n nl C u c a q = force n nl C v c a q.
Proof. intros H. unfold force. apply sum_ext. intros. now rewrite (Bt_ext q u v), (stress_at_ext (C q) q u v). Qed.
Lemma stiff_ext C u v c a d b q : (forall c a, u c a = v c a) -> stiff n nl C u c a d b q = stiff n nl C v c a d b q.
Proof.
  intros H. unfold stiff. f_equal.
  - apply sum_ext. intros r _. rewrite (Bt_ext q u v) by auto. f_equal. apply sum_ext. intros. now rewrite (Bt_ext q u v).
  - destruct nl eqn:N; [|reflexivity]. apply geo_ext. intros r _. rewrite <- N. now apply stress_at_ext.
Qed.
Lemma energy_0 qs C u : energy_from nl n qs C (fun _ _ => 0) u = energy nl n qs C u.
Proof.
  unfold energy_from, energy. apply integral_ext. intros q _. f_equal. apply sum_ext. intros r _. unfold stress_vec.
  rewrite Rminus_0_r. f_equal. apply sum_ext. intros. now rewrite Rminus_0_r.
Qed.
Lemma stiff_sym C u c a d b q : symmetric6 (C q) -> stiff n nl C u c a d b q = stiff n nl C u d b c a q.
Proof.
  intros H. unfold stiff. f_equal.
  - transitivity (sum 6 (fun r => sum 6 (fun s => Bt n nl q u r c a * (C q r s * Bt n nl q u s d b)))).
    { apply sum_ext. intros. now rewrite sum_scal_l. }
    rewrite sum_swap. apply sum_ext. intros s Hs. rewrite <- sum_scal_l. apply sum_ext. intros r Hr. rewrite (H r s) by auto. ring.
  - destruct nl; [|reflexivity]. unfold geo, delta. rewrite (Nat.eqb_sym d c). f_equal.
    cbn [sum stress33]. ring.
Qed.

(** *** thermal loads *)
Definition tforce (A : qpt -> nat -> R) (dt : qpt -> R) (u : dofs) (c a : nat) (q : qpt) : R :=
  sum 6 (fun r => Bt n nl q u r c a * (A q r * dt q)).
Definition tgeo (A : qpt -> nat -> R) (dt : qpt -> R) (c a d b : nat) (q : qpt) : R :=
  if nl then geo q (fun r => A q r * dt q) c a d b else 0.
Lemma thermal_fold A dt u req qs c a : forall f j, fst (fold_left (thermal_qp n nl A dt u req) qs (f, j)) c a =
  if Nat.ltb c 3 then f c a - integral qs (tforce A dt u c a) else f c a.
Proof.
  induction qs as [|q qs IH]; intros f j.
  - cbn [fold_left fst]. destruct (Nat.ltb c 3); [rewrite integral_nil; ring|reflexivity].
  - cbn [fold_left]. destruct (thermal_qp n nl A dt u req (f, j) q) as [f' j'] eqn:E. rewrite IH.
    assert (F : fst (thermal_qp n nl A dt u req (f, j) q) c a = if Nat.ltb c 3 then f c a + - jxw q * tforce A dt u c a q else f c a).
    { unfold tforce. rewrite <- add_force_eq. unfold thermal_qp. destruct (nl && req)%bool; reflexivity. }
    rewrite E in F. cbn [fst] in F. rewrite F, integral_cons. destruct (Nat.ltb c 3); [ring|reflexivity].
Qed.
Lemma thermal_fold_j A dt u req qs c a d b : (c < 3)%nat -> (d < 3)%nat -> req = true -> forall f j,
  snd (fold_left (thermal_qp n nl A dt u req) qs (f, j)) c a d b = j c a d b - integral qs (tgeo A dt c a d b).
Proof.
  intros Hc Hd R. induction qs as [|q qs IH]; intros f j.
  - cbn [fold_left snd]. rewrite integral_nil. ring.
  - cbn [fold_left]. destruct (thermal_qp n nl A dt u req (f, j) q) as [f' j'] eqn:E. rewrite IH.
    assert (F : snd (thermal_qp n nl A dt u req (f, j) q) c a d b = j c a d b + - jxw q * tgeo A dt c a d b q).
    { unfold thermal_qp, tgeo. rewrite R. destruct (bool_dec nl true) as [N|N]; [|apply not_true_is_false in N]; rewrite N; cbn [andb snd].
      - rewrite <- N at 1. rewrite add_geometric_eq by auto. reflexivity.
      - ring. }
    rewrite E in F. cbn [snd] in F. rewrite F, integral_cons. ring.
Qed.
Lemma thermal_fold_out A dt u req qs c a d b : (3 <= c \/ 3 <= d)%nat -> forall f j,
  snd (fold_left (thermal_qp n nl A dt u req) qs (f, j)) c a d b = j c a d b.
Proof.
  intros H. induction qs as [|q qs IH]; intros f j; [reflexivity|].
  cbn [fold_left]. destruct (thermal_qp n nl A dt u req (f, j) q) as [f' j'] eqn:E. rewrite IH.
  unfold thermal_qp in E. destruct (nl && req)%bool; injection E as _ <-; [|reflexivity]. now apply add_geometric_out.
Qed.
Lemma der_tforce t0 u du A dt q c a : history n t0 u du -> (c < 3)%nat ->
  is_derive (fun t => tforce A dt (u t) c a q) t0 (sum 3 (fun d => sum n (fun b => tgeo A dt c a d b q * du d b))).
Proof.
  intros Hu Hc. unfold tforce. eapply der_eq.
  - apply (der_sum 6 (fun r t => Bt n nl q (u t) r c a * (A q r * dt q)) (fun r => dBt n nl du q r c a * (A q r * dt q))).
    intros r Hr. apply (der_fun (fun t => (A q r * dt q) * Bt n nl q (u t) r c a)); [intros; ring|].
    eapply der_eq; [apply der_scal; eapply der_Bt; eauto|ring].
  - unfold tgeo. destruct (bool_dec nl true) as [N|N]; [|apply not_true_is_false in N].
    + rewrite (geo_work n nl du q _ c a Hc N). rewrite N. reflexivity.
    + rewrite N. transitivity 0; [apply sum_0; intros r _; unfold dBt, dFd; destruct (Nat.ltb r 3); ring|].
      symmetry. apply sum_0. intros d _. apply sum_0. intros; ring.
Qed.
Lemma work_tforce u du A dt qs : dot n (fun c a => integral qs (tforce A dt u c a)) du =
  integral qs (fun q => sum 6 (fun r => A q r * dt q * dstrain n nl 0 (fun _ => u) du q r)).
Proof.
  unfold dot. transitivity (integral qs (fun q => sum 3 (fun c => sum n (fun a => tforce A dt u c a q * du c a)))).
  - rewrite integral_sum. apply sum_ext. intros c _. rewrite integral_sum. apply sum_ext. intros a _. now rewrite integral_mulr.
  - apply integral_ext. intros q _. unfold tforce, dstrain.
    transitivity (sum 3 (fun c => sum 6 (fun r => sum n (fun a => Bt n nl q u r c a * (A q r * dt q) * du c a)))).
    { apply sum_ext. intros c _. rewrite sum_swap. apply sum_ext. intros a _. now rewrite sum_scal_r. }
    rewrite sum_swap. apply sum_ext. intros r _. rewrite <- sum_scal_l. apply sum_ext. intros c _. rewrite <- sum_scal_l.
    apply sum_ext. intros; ring.
Qed.
End E.

(** *** invariance and equilibrium *)
Lemma orth_dot Q A B : orthogonal Q ->
  sum 3 (fun k => sum 3 (fun l => Q k l * A l) * sum 3 (fun m => Q k m * B m)) = sum 3 (fun l => A l * B l).
Proof.
  intros H. transitivity (sum 3 (fun l => sum 3 (fun m => sum 3 (fun k => Q k l * Q k m) * (A l * B m)))); [cbn [sum]; ring|].
  transitivity (sum 3 (fun l => sum 3 (fun m => delta l m * (A l * B m)))).
  - apply sum_ext. intros l Hl. apply sum_ext. intros m Hm. now rewrite H.
  - unfold delta. cbn [sum Nat.eqb]. ring.
Qed.
Section I.
Variable n : nat.
Variables (x : dofs) (qs : list qpt).
Hypothesis CX : complete n x qs.
Lemma sup_defgrad Q t u q i j : In q qs -> (i < 3)%nat -> (j < 3)%nat ->
  defgrad n q (superposed Q t x u) i j = sum 3 (fun k => Q i k * defgrad n q u k j).
Proof.
  intros Hq Hi Hj. destruct (CX q Hq) as [C0 C1]. unfold defgrad.
  assert (E : grad n q (superposed Q t x u) i j = sum 3 (fun k => Q i k * (grad n q x k j + grad n q u k j)) + t i * 0 - grad n q x i j).
  { rewrite <- (C0 j Hj). unfold grad, superposed.
    transitivity (sum n (fun a => sum 3 (fun k => Q i k * (x k a * dphi q a j + u k a * dphi q a j)) + t i * dphi q a j - x i a * dphi q a j)).
    { apply sum_ext. intros a _. cbn [sum]. ring. }
    rewrite sum_minus, sum_plus, sum_scal_l. f_equal. f_equal. rewrite sum_swap. apply sum_ext. intros k _.
    rewrite sum_scal_l, sum_plus. reflexivity. }
  rewrite E, C1 by auto. rewrite (sum_ext 3 (fun k => Q i k * (grad n q x k j + grad n q u k j)) (fun k => Q i k * (delta k j + grad n q u k j)))
    by (intros k Hk; now rewrite C1). ring.
Qed.
Lemma sup_strain Q t u q i j : orthogonal Q -> In q qs -> (i < 3)%nat -> (j < 3)%nat ->
  strain true n q (superposed Q t x u) i j = strain true n q u i j.
Proof.
  intros HQ Hq Hi Hj. unfold strain. f_equal. f_equal.
  transitivity (sum 3 (fun k => sum 3 (fun l => Q k l * defgrad n q u l i) * sum 3 (fun m => Q k m * defgrad n q u m j))).
  - apply sum_ext. intros k Hk. now rewrite !sup_defgrad.
  - now apply orth_dot.
Qed.
Lemma sup_force Q t C u c a q : orthogonal Q -> In q qs -> (c < 3)%nat ->
  force n true C (superposed Q t x u) c a q = sum 3 (fun k => Q c k * force n true C u k a q).
Proof.
  intros HQ Hq Hc.
  assert (S : forall r, stress_at n true (C q) q (superposed Q t x u) r = stress_at n true (C q) q u r).
  { intros r. unfold stress_at, stress_vec. apply sum_ext. intros s _. f_equal. unfold strain_vec. f_equal.
    apply sup_strain; auto; [apply row1_lt|apply row2_lt]. }
  assert (B : forall r, Bt n true q (superposed Q t x u) r c a = sum 3 (fun k => Q c k * Bt n true q u r k a)).
  { intros r. unfold Bt, Fd. rewrite !sup_defgrad by (auto using row1_lt, row2_lt). destruct (Nat.ltb r 3).
    - rewrite <- sum_scal_r. apply sum_ext. intros; ring.
    - rewrite <- !sum_scal_r, <- sum_plus. apply sum_ext. intros; ring. }
  unfold force. transitivity (sum 6 (fun r => sum 3 (fun k => Q c k * (Bt n true q u r k a * stress_at n true (C q) q u r)))).
  - apply sum_ext. intros r _. rewrite S, B, <- sum_scal_r. apply sum_ext. intros; ring.
  - rewrite sum_swap. apply sum_ext. intros k _. now rewrite sum_scal_l.
Qed.
Lemma small_strain W t q i j : skew W -> In q qs -> (i < 3)%nat -> (j < 3)%nat -> strain false n q (small_rigid W t x) i j = 0.
Proof.
  intros HW Hq Hi Hj. destruct (CX q Hq) as [C0 C1].
  assert (E : forall i j, (i < 3)%nat -> (j < 3)%nat -> grad n q (small_rigid W t x) i j = W i j).
  { clear i j Hi Hj. intros i j Hi Hj.
    transitivity (sum 3 (fun k => W i k * grad n q x k j) + t i * sum n (fun a => dphi q a j)).
    - unfold grad, small_rigid. rewrite <- sum_scal_l.
      transitivity (sum n (fun a => sum 3 (fun k => W i k * (x k a * dphi q a j)) + t i * dphi q a j)).
      { apply sum_ext. intros a _. cbn [sum]. ring. }
      rewrite sum_plus. f_equal. rewrite sum_swap. apply sum_ext. intros k _. now rewrite sum_scal_l.
    - rewrite C0 by auto. rewrite (sum_ext 3 _ (fun k => W i k * delta k j)) by (intros k Hk; now rewrite C1).
      unfold delta. destruct j as [|[|[|j]]]; [| | |exfalso; lia]; cbn [sum Nat.eqb]; ring. }
  unfold strain. rewrite !E by auto. rewrite (HW i j) by auto. ring.
Qed.
Lemma zero_strain_force nl C u c a q : (forall i j, (i < 3)%nat -> (j < 3)%nat -> strain nl n q u i j = 0) -> force n nl C u c a q = 0.
Proof.
  intros H. unfold force. apply sum_0. intros r _.
  assert (Z : stress_at n nl (C q) q u r = 0); [|rewrite Z; ring].
  unfold stress_at, stress_vec. apply sum_0. intros s _. unfold strain_vec. rewrite H by (auto using row1_lt, row2_lt). ring.
Qed.
Lemma force_resultant nl C u c q : In q qs -> sum n (fun a => force n nl C u c a q) = 0.
Proof.
  intros Hq. destruct (CX q Hq) as [C0 _]. unfold force. rewrite sum_swap. apply sum_0. intros r Hr.
  transitivity (sum n (fun a => Bt n nl q u r c a) * stress_at n nl (C q) q u r); [symmetry; rewrite <- sum_scal_r; reflexivity|].
  assert (Z : sum n (fun a => Bt n nl q u r c a) = 0); [|rewrite Z; ring].
  unfold Bt. destruct (Nat.ltb r 3).
  - rewrite sum_scal_l, C0 by apply row1_lt. ring.
  - rewrite sum_plus, !sum_scal_l, !C0 by (apply row1_lt || apply row2_lt). ring.
Qed.
Definition position (nl : bool) (u : dofs) : dofs := fun c a => if nl then x c a + u c a else x c a.
Lemma grad_pos nl u q i j : In q qs -> (i < 3)%nat -> (j < 3)%nat -> grad n q (position nl u) i j = Fd n nl q u i j.
Proof.
  intros Hq Hi Hj. destruct (CX q Hq) as [_ C1]. unfold Fd, position. destruct nl.
  - unfold defgrad. rewrite <- (C1 i j) by auto. unfold grad. rewrite <- sum_plus. apply sum_ext. intros; ring.
  - rewrite <- (C1 i j) by auto. reflexivity.
Qed.
Lemma force_moment nl C u c d q : In q qs -> (c < 3)%nat -> (d < 3)%nat ->
  sum n (fun a => position nl u c a * force n nl C u d a q) = sum n (fun a => position nl u d a * force n nl C u c a q).
Proof.
  intros Hq Hc Hd.
  assert (K : forall c d, (c < 3)%nat -> sum n (fun a => position nl u c a * force n nl C u d a q) =
    sum 6 (fun r => stress_at n nl (C q) q u r * (if Nat.ltb r 3 then Fd n nl q u d (row1 r) * Fd n nl q u c (row1 r)
      else Fd n nl q u d (row1 r) * Fd n nl q u c (row2 r) + Fd n nl q u d (row2 r) * Fd n nl q u c (row1 r)))).
  { clear c d Hc Hd. intros c d Hc. unfold force.
    transitivity (sum n (fun a => sum 6 (fun r => position nl u c a * (Bt n nl q u r d a * stress_at n nl (C q) q u r)))).
    { apply sum_ext. intros a _. now rewrite sum_scal_l. }
    rewrite sum_swap. apply sum_ext. intros r _.
    transitivity (stress_at n nl (C q) q u r * sum n (fun a => position nl u c a * Bt n nl q u r d a)).
    { rewrite <- sum_scal_l. apply sum_ext. intros; ring. }
    f_equal. rewrite <- !(grad_pos nl u q c) by (auto using row1_lt, row2_lt). unfold Bt, grad. destruct (Nat.ltb r 3).
    - rewrite <- sum_scal_l. apply sum_ext. intros; ring.
    - rewrite <- !sum_scal_l, <- sum_plus. apply sum_ext. intros; ring. }
  rewrite !K by auto. apply sum_ext. intros r _. f_equal. destruct (Nat.ltb r 3); ring.
Qed.
End I.
