From Coq Require Import Reals Lra.
From Coquelicot Require Import Coquelicot.
From Coq Require Import List Arith Bool Lia.
From Verif Require Import Base BaseLemmas Sens_Spec Sens_Proofs Sens_Proofs2 Heat_Proofs Solid_Model Solid_Spec Solid_Proofs2 Dof6_Model Dof6_Proofs Beam_Model Beam_Spec.
Import ListNotations.
Open Scope R_scope.

Section B.
Variable n : nat.
Variable vk : bool.
Variable b : bending.
Hypothesis FIT : fits b n.

Ltac vmo := rewrite ?vm_oset by (try lia; intros; reflexivity); rewrite ?vm_zop; cbn [Nat.eqb].
Lemma vm_direct q u r : vm n (direct q) u r = match r with O => dx n q u 0 | S O => dx n q u 3 | _ => 0 end.
Proof. unfold direct, dx. vmo. destruct r as [|[|r]]; cbn [Nat.eqb]; ring. Qed.
Lemma vm_vkv q u r : vm n (vk_v q) u r = match r with O => dx n q u 1 | _ => 0 end.
Proof. unfold vk_v, dx. vmo. destruct r as [|r]; cbn [Nat.eqb]; ring. Qed.
Lemma vm_vkw q u r : vm n (vk_w q) u r = match r with O => dx n q u 2 | _ => 0 end.
Proof. unfold vk_w, dx. vmo. destruct r as [|r]; cbn [Nat.eqb]; ring. Qed.
Lemma scal_sum m s (f v : nat -> R) : sum m (fun a => scal s f a * v a) = s * sum m (fun a => f a * v a).
Proof. rewrite <- sum_scal_l. apply sum_ext. intros; unfold scal; ring. Qed.
Lemma scal_0 s r c a : scal s (zop r c) a = 0.
Proof. unfold scal, zop. ring. Qed.
Lemma vm_yz_y q u y z r : vm n (fst (bend_yz b q y z)) u r = match r with O => y * curv_y b n q u | _ => 0 end.
Proof.
  destruct b as [|L xi|] eqn:Eb; cbn [fst bend_yz curv_y].
  - rewrite vm_zop. destruct r; ring.
  - destruct FIT as [-> HL]. vmo. rewrite !scal_sum. destruct r as [|r]; cbn [Nat.eqb]; [|ring].
    cbn [sum pair2]. unfold hermite'', cubic''. field; auto.
  - vmo. rewrite scal_sum. unfold dx. destruct r as [|r]; cbn [Nat.eqb]; ring.
Qed.
Lemma vm_yz_z q u y z r : vm n (snd (bend_yz b q y z)) u r = match r with O => z * curv_z b n q u | _ => 0 end.
Proof.
  destruct b as [|L xi|] eqn:Eb; cbn [snd bend_yz curv_z].
  - rewrite vm_zop. destruct r; ring.
  - destruct FIT as [-> HL]. vmo. rewrite !scal_sum. destruct r as [|r]; cbn [Nat.eqb]; [|ring].
    cbn [sum pair2]. unfold hermite'', cubic''. field; auto.
  - vmo. rewrite scal_sum. unfold dx. destruct r as [|r]; cbn [Nat.eqb]; ring.
Qed.
Lemma vm_y q u r : vm n (fst (bend b q)) u r = match r with O => curv_y b n q u | _ => 0 end.
Proof. unfold bend. rewrite vm_yz_y. destruct r; ring. Qed.
Lemma vm_z q u r : vm n (snd (bend b q)) u r = match r with O => curv_z b n q u | _ => 0 end.
Proof. unfold bend. rewrite vm_yz_z. destruct r; ring. Qed.
Lemma vm_sv q u r : vm n (shear_v q) u r = match r with O => gamma n q u 0 | _ => 0 end.
Proof. unfold shear_v. vmo. rewrite scal_sum. unfold gamma, dx, value. destruct r as [|r]; cbn [Nat.eqb]; ring. Qed.
Lemma vm_sw q u r : vm n (shear_w q) u r = match r with O => gamma n q u 1 | _ => 0 end.
Proof. unfold shear_w. vmo. unfold gamma, dx, value. destruct r as [|r]; cbn [Nat.eqb]; ring. Qed.
Lemma slope_dx q u c : slope n q u c = dx n q u c.
Proof. reflexivity. Qed.

(** *** weak forms at a quadrature point *)
Definition ky := curv_y b n.
Definition kz := curv_z b n.
Definition ax (q : qpt) (u : dofs) : R := axial (vk && bends b) n q u.
Definition force (S : sect) (q : qpt) (u : dofs) : R :=
  sA S 0%nat 0%nat * ax q u + sA S 0%nat 1%nat * twist n q u + sB S 0%nat 0%nat * ky q u + sB S 0%nat 1%nat * kz q u.
(** derivative of the axial strain in the direction d *)
Definition dax (q : qpt) (u d : dofs) : R :=
  dx n q d 0 + (if vk && bends b then dx n q u 1 * dx n q d 1 + dx n q u 2 * dx n q d 2 else 0).
Definition wf (S : sect) (q : qpt) (u d : dofs) : R :=
  force S q u * dax q u d + (sA S 1%nat 0%nat * dx n q u 0 + sA S 1%nat 1%nat * twist n q u) * twist n q d
  + ax q u * (sB S 0%nat 0%nat * ky q d + sB S 0%nat 1%nat * kz q d)
  + (sD S 0%nat 0%nat * ky q u + sD S 0%nat 1%nat * kz q u) * ky q d + (sD S 1%nat 0%nat * ky q u + sD S 1%nat 1%nat * kz q u) * kz q d.
Lemma no_k : bends b = false -> forall q u, ky q u = 0 /\ kz q u = 0.
Proof. unfold ky, kz. destruct b; try discriminate. intros _ q u. split; reflexivity. Qed.
Ltac vms := cbn [sum vk_strain]; rewrite ?vm_lm; cbn [sum]; rewrite ?vm_direct, ?vm_vkv, ?vm_vkw, ?vm_y, ?vm_z, ?vm_sv, ?vm_sw; change (slope n) with (dx n).
Lemma internal_qp_f S u req f j q d :
  dot6 n (fst (internal_qp n vk b S u req (f, j) q)) d = dot6 n f d + jxw q * wf (S q) q u d.
Proof.
  transitivity (dot6 n (fst (internal_qp n vk b S u false (f, j) q)) d).
  { f_equal. unfold internal_qp. destruct req; reflexivity. }
  unfold internal_qp, wf, dax, force, ax, axial, twist.
  destruct (bends b) eqn:Eb; destruct vk; cbv zeta; cbn [fst andb];
  rewrite ?dot_plusf, ?dot_vmt; vms; unfold ky, kz; try (field; fail).
  - destruct (no_k Eb q u) as [K1 K2], (no_k Eb q d) as [K3 K4]. unfold ky, kz in *. rewrite K1, K2, K3, K4. field.
  - destruct (no_k Eb q u) as [K1 K2], (no_k Eb q d) as [K3 K4]. unfold ky, kz in *. rewrite K1, K2, K3, K4. field.
Qed.
Definition wj (S : sect) (q : qpt) (u d v : dofs) : R :=
  sA S 0%nat 0%nat * dax q u v * dax q u d + sA S 1%nat 1%nat * twist n q v * twist n q d
  + (sB S 0%nat 0%nat * ky q v + sB S 0%nat 1%nat * kz q v) * dax q u d
  + (sB S 0%nat 0%nat * ky q d + sB S 0%nat 1%nat * kz q d) * dax q u v
  + (sD S 0%nat 0%nat * ky q v + sD S 0%nat 1%nat * kz q v) * ky q d + (sD S 1%nat 0%nat * ky q v + sD S 1%nat 1%nat * kz q v) * kz q d
  + (if vk && bends b then force S q u * (dx n q d 1 * dx n q v 1 + dx n q d 2 * dx n q v 2) else 0).
Lemma internal_qp_j S u f j q d v : sA (S q) 0%nat 1%nat = 0 -> sA (S q) 1%nat 0%nat = 0 ->
  bil n (snd (internal_qp n vk b S u true (f, j) q)) d v = bil n j d v + jxw q * wj (S q) q u d v.
Proof.
  intros H1 H2. unfold internal_qp, wj, dax, force, ax, axial, twist. rewrite H1.
  destruct (bends b) eqn:Eb; destruct vk; cbv zeta; cbn [snd andb];
  rewrite ?bil_plusj, ?bil_rmt; vms; unfold ky, kz; rewrite ?H1, ?H2; try (field; fail).
  - destruct (no_k Eb q u) as [K1 K2], (no_k Eb q d) as [K3 K4], (no_k Eb q v) as [K5 K6]. unfold ky, kz in *. rewrite ?K1, ?K2, ?K3, ?K4, ?K5, ?K6. field.
  - destruct (no_k Eb q u) as [K1 K2], (no_k Eb q d) as [K3 K4], (no_k Eb q v) as [K5 K6]. unfold ky, kz in *. rewrite ?K1, ?K2, ?K3, ?K4, ?K5, ?K6. field.
Qed.
Definition sf (G : nat -> nat -> R) (q : qpt) (u d : dofs) : R :=
  G 0%nat 0%nat * (gamma n q u 0 * gamma n q d 0 + gamma n q u 1 * gamma n q d 1).
Lemma shear_qp_f G u req f j q d : dot6 n (fst (shear_qp n G u req (f, j) q)) d = dot6 n f d + jxw q * sf (G q) q u d.
Proof.
  transitivity (dot6 n (fst (shear_qp n G u false (f, j) q)) d).
  { f_equal. unfold shear_qp. destruct req; reflexivity. }
  unfold shear_qp, sf. cbv zeta. cbn [fst]. rewrite ?dot_plusf, ?dot_vmt; vms. ring.
Qed.
Lemma shear_qp_j G u f j q d v : bil n (snd (shear_qp n G u true (f, j) q)) d v = bil n j d v + jxw q * sf (G q) q v d.
Proof.
  unfold shear_qp, sf. cbv zeta. cbn [snd]. rewrite ?bil_plusj, ?bil_rmt; vms. ring.
Qed.

(** *** folds *)
Lemma fold_f S u req qs fj d : dot6 n (fst (fold_left (internal_qp n vk b S u req) qs fj)) d = dot6 n (fst fj) d + integral qs (fun q => wf (S q) q u d).
Proof.
  revert fj. induction qs as [|q qs IH]; intros [f j]; cbn [fold_left fst].
  - rewrite integral_nil. ring.
  - rewrite IH, internal_qp_f, integral_cons. ring.
Qed.
Lemma fold_j S u qs fj d v : (forall q, In q qs -> sA (S q) 0%nat 1%nat = 0 /\ sA (S q) 1%nat 0%nat = 0) ->
  bil n (snd (fold_left (internal_qp n vk b S u true) qs fj)) d v = bil n (snd fj) d v + integral qs (fun q => wj (S q) q u d v).
Proof.
  revert fj. induction qs as [|q qs IH]; intros [f j] H; cbn [fold_left snd].
  - rewrite integral_nil. ring.
  - destruct (H q (or_introl eq_refl)). rewrite IH, internal_qp_j, integral_cons by (auto; intros; apply H; now right). ring.
Qed.
Lemma foldn_j S u qs fj : snd (fold_left (internal_qp n vk b S u false) qs fj) = snd fj.
Proof. revert fj. induction qs as [|q qs IH]; intros [f j]; cbn [fold_left]; [reflexivity|]. now rewrite IH. Qed.
Lemma folds_f G u req qs fj d : dot6 n (fst (fold_left (shear_qp n G u req) qs fj)) d = dot6 n (fst fj) d + integral qs (fun q => sf (G q) q u d).
Proof.
  revert fj. induction qs as [|q qs IH]; intros [f j]; cbn [fold_left fst].
  - rewrite integral_nil. ring.
  - rewrite IH, shear_qp_f, integral_cons. ring.
Qed.
Lemma folds_j G u qs fj d v : bil n (snd (fold_left (shear_qp n G u true) qs fj)) d v = bil n (snd fj) d v + integral qs (fun q => sf (G q) q v d).
Proof.
  revert fj. induction qs as [|q qs IH]; intros [f j]; cbn [fold_left snd].
  - rewrite integral_nil. ring.
  - rewrite IH, shear_qp_j, integral_cons. ring.
Qed.
(** weak form of the element *)
Definition WF (qs sq : list qpt) (S : qpt -> sect) (G : qpt -> nat -> nat -> R) (u d : dofs) : R :=
  integral qs (fun q => wf (S q) q u d) + (if shears b then integral sq (fun q => sf (G q) q u d) else 0).
Definition WJ (qs sq : list qpt) (S : qpt -> sect) (G : qpt -> nat -> nat -> R) (u d v : dofs) : R :=
  integral qs (fun q => wj (S q) q u d v) + (if shears b then integral sq (fun q => sf (G q) q v d) else 0).
Lemma local_f qs sq S G u req d : dot6 n (fst (local_internal n vk b qs sq S G u req)) d = WF qs sq S G u d.
Proof.
  unfold local_internal, WF. destruct (shears b).
  - rewrite folds_f, fold_f. cbn [fst]. rewrite dot_zf. ring.
  - rewrite fold_f. cbn [fst]. rewrite dot_zf. ring.
Qed.
Lemma local_j qs sq S G u d v : (forall q, In q qs -> sA (S q) 0%nat 1%nat = 0 /\ sA (S q) 1%nat 0%nat = 0) ->
  bil n (snd (local_internal n vk b qs sq S G u true)) d v = WJ qs sq S G u d v.
Proof.
  intros H. unfold local_internal, WJ. destruct (shears b).
  - rewrite folds_j, fold_j by auto. cbn [snd]. rewrite bil_zj. ring.
  - rewrite fold_j by auto. cbn [snd]. rewrite bil_zj. ring.
Qed.

(** *** derivatives along a history *)
Section H.
Variables (u : R -> dofs) (du : dofs) (t0 : R).
Hypothesis HU : history6 n t0 u du.
Lemma der_dx q c : (c < 6)%nat -> is_derive (fun s => dx n q (u s) c) t0 (dx n q du c).
Proof. intros Hc. unfold dx. apply der_sum. intros a Ha. apply der_scal. auto. Qed.
Lemma der_value q c : (c < 6)%nat -> is_derive (fun s => value n q (u s) c) t0 (value n q du c).
Proof. intros Hc. unfold value. apply der_sum. intros a Ha. apply der_scal. auto. Qed.
Lemma der_ky q : is_derive (fun s => ky q (u s)) t0 (ky q du).
Proof.
  apply (der_ext (fun s => vm n (fst (bend b q)) (u s) 0) _ t0 (vm n (fst (bend b q)) du 0)); [intros; symmetry; apply (vm_y q _ 0)|first [apply (vm_y q _ 0)|symmetry; apply (vm_y q _ 0)]|now apply der_vm].
Qed.
Lemma der_kz q : is_derive (fun s => kz q (u s)) t0 (kz q du).
Proof.
  apply (der_ext (fun s => vm n (snd (bend b q)) (u s) 0) _ t0 (vm n (snd (bend b q)) du 0)); [intros; symmetry; apply (vm_z q _ 0)|first [apply (vm_z q _ 0)|symmetry; apply (vm_z q _ 0)]|now apply der_vm].
Qed.
Lemma der_gamma q i : is_derive (fun s => gamma n q (u s) i) t0 (gamma n q du i).
Proof.
  destruct i as [|i].
  - apply (der_ext (fun s => vm n (shear_v q) (u s) 0) _ t0 (vm n (shear_v q) du 0)); [intros; symmetry; apply (vm_sv q _ 0)|first [apply (vm_sv q _ 0)|symmetry; apply (vm_sv q _ 0)]|now apply der_vm].
  - apply (der_ext (fun s => vm n (shear_w q) (u s) 0) _ t0 (vm n (shear_w q) du 0)); [intros; symmetry; apply (vm_sw q _ 0)|first [apply (vm_sw q _ 0)|symmetry; apply (vm_sw q _ 0)]|now apply der_vm].
Qed.
(** derivative of a product of two functions, with the value of the derivative given up to equality *)
Lemma der_mul f g df dg d : is_derive f t0 df -> is_derive g t0 dg -> d = df * g t0 + f t0 * dg -> is_derive (fun s : R => f s * g s) t0 d.
Proof. intros F G ->. now apply der_mult. Qed.
Lemma der_add f g df dg d : is_derive f t0 df -> is_derive g t0 dg -> d = df + dg -> is_derive (fun s : R => f s + g s) t0 d.
Proof. intros F G ->. now apply der_plus. Qed.
Lemma der_sc k f df d : is_derive f t0 df -> d = k * df -> is_derive (fun s : R => k * f s) t0 d.
Proof. intros F ->. now apply der_scal. Qed.
Lemma der_cst (k d : R) : d = 0 -> is_derive (fun _ : R => k) t0 d.
Proof. intros ->. apply (der_const k). Qed.
Lemma der_sq f df d : is_derive f t0 df -> d = 2 * f t0 * df -> is_derive (fun s : R => f s ^ 2) t0 d.
Proof. intros F ->. apply (der_ext (fun s => f s * f s) _ t0 (df * f t0 + f t0 * df)); [intros; ring|ring|now apply der_mult]. Qed.
Lemma der_ax q : is_derive (fun s => ax q (u s)) t0 (dax q (u t0) du).
Proof.
  unfold ax, dax, axial. destruct (vk && bends b)%bool.
  - eapply der_add; [apply der_dx; lia| |reflexivity].
    eapply der_sc. { eapply der_add; [eapply der_sq; [apply der_dx; lia|reflexivity]|eapply der_sq; [apply der_dx; lia|reflexivity]|reflexivity]. } field.
  - eapply der_add; [apply der_dx; lia|apply der_cst; reflexivity|ring].
Qed.
Lemma der_dax q d : is_derive (fun s => dax q (u s) d) t0
  (if vk && bends b then dx n q d 1 * dx n q du 1 + dx n q d 2 * dx n q du 2 else 0).
Proof.
  unfold dax. destruct (vk && bends b)%bool.
  - eapply der_add; [apply der_cst; reflexivity| |].
    + eapply der_add; [eapply der_mul; [apply der_dx; lia|apply der_cst; reflexivity|reflexivity]
                      |eapply der_mul; [apply der_dx; lia|apply der_cst; reflexivity|reflexivity]|reflexivity].
    + cbv beta. ring.
  - apply der_cst. reflexivity.
Qed.
Lemma der_force S q : is_derive (fun s => force S q (u s)) t0
  (sA S 0%nat 0%nat * dax q (u t0) du + sA S 0%nat 1%nat * twist n q du + sB S 0%nat 0%nat * ky q du + sB S 0%nat 1%nat * kz q du).
Proof.
  unfold force, twist.
  eapply der_add; [eapply der_add; [eapply der_add; [eapply der_sc; [apply der_ax|reflexivity]|eapply der_sc; [apply der_dx; lia|reflexivity]|reflexivity]
    |eapply der_sc; [apply der_ky|reflexivity]|reflexivity]|eapply der_sc; [apply der_kz|reflexivity]|reflexivity].
Qed.
Lemma der_density S q : regular S -> is_derive (fun s => density vk b n S q (u s)) t0 (wf S q (u t0) du).
Proof.
  intros (H1 & H2 & H3).
  apply (der_ext (fun s => 1/2 * (sA S 0%nat 0%nat * ax q (u s) ^ 2 + sA S 1%nat 1%nat * dx n q (u s) 3 ^ 2)
     + ax q (u s) * (sB S 0%nat 0%nat * ky q (u s) + sB S 0%nat 1%nat * kz q (u s))
     + 1/2 * (sD S 0%nat 0%nat * ky q (u s) ^ 2 + 2 * sD S 1%nat 0%nat * (ky q (u s) * kz q (u s)) + sD S 1%nat 1%nat * kz q (u s) ^ 2)) _ t0
     (1/2 * (sA S 0%nat 0%nat * (2 * ax q (u t0) * dax q (u t0) du) + sA S 1%nat 1%nat * (2 * dx n q (u t0) 3 * dx n q du 3))
     + (dax q (u t0) du * (sB S 0%nat 0%nat * ky q (u t0) + sB S 0%nat 1%nat * kz q (u t0)) + ax q (u t0) * (sB S 0%nat 0%nat * ky q du + sB S 0%nat 1%nat * kz q du))
     + 1/2 * (sD S 0%nat 0%nat * (2 * ky q (u t0) * ky q du) + 2 * sD S 1%nat 0%nat * (ky q du * kz q (u t0) + ky q (u t0) * kz q du) + sD S 1%nat 1%nat * (2 * kz q (u t0) * kz q du)))).
  - intros s. unfold density, ax, ky, kz, twist. cbn [sum]. rewrite H3. field.
  - unfold wf, force, twist. rewrite H1, H2, H3. field.
  - eapply der_add; [eapply der_add; [eapply der_sc; [eapply der_add; [eapply der_sc; [eapply der_sq; [apply der_ax|reflexivity]|reflexivity]|eapply der_sc; [eapply der_sq; [apply der_dx; lia|reflexivity]|reflexivity]|reflexivity]|reflexivity]
    |eapply der_mul; [apply der_ax|eapply der_add; [eapply der_sc; [apply der_ky|reflexivity]|eapply der_sc; [apply der_kz|reflexivity]|reflexivity]|reflexivity]|reflexivity]
    |eapply der_sc; [|reflexivity]|reflexivity].
    eapply der_add; [eapply der_add; [eapply der_sc; [eapply der_sq; [apply der_ky|reflexivity]|reflexivity]|eapply der_sc; [eapply der_mul; [apply der_ky|apply der_kz|reflexivity]|reflexivity]|reflexivity]
      |eapply der_sc; [eapply der_sq; [apply der_kz|reflexivity]|reflexivity]|reflexivity].
Qed.
Lemma der_shear_density G q : equal_shear G -> is_derive (fun s => shear_density n G q (u s)) t0 (sf G q (u t0) du).
Proof.
  intros (H1 & H2 & H3).
  apply (der_ext (fun s => 1/2 * (G 0%nat 0%nat * (gamma n q (u s) 0 ^ 2 + gamma n q (u s) 1 ^ 2))) _ t0
    (1/2 * (G 0%nat 0%nat * (2 * gamma n q (u t0) 0 * gamma n q du 0 + 2 * gamma n q (u t0) 1 * gamma n q du 1)))).
  - intros s. unfold shear_density. cbn [sum]. rewrite H1, H2, H3. field.
  - unfold sf. field.
  - eapply der_sc; [eapply der_sc; [eapply der_add; [eapply der_sq; [apply der_gamma|reflexivity]|eapply der_sq; [apply der_gamma|reflexivity]|reflexivity]|reflexivity]|reflexivity].
Qed.
Lemma der_wf S q d : sA S 0%nat 1%nat = 0 -> sA S 1%nat 0%nat = 0 -> is_derive (fun s => wf S q (u s) d) t0 (wj S q (u t0) d du).
Proof.
  intros H1 H2. unfold wf, twist.
  eapply der_add; [eapply der_add; [eapply der_add; [eapply der_add; [eapply der_mul; [apply der_force|apply der_dax|reflexivity]
    |eapply der_mul; [eapply der_add; [eapply der_sc; [apply der_dx; lia|reflexivity]|eapply der_sc; [apply der_dx; lia|reflexivity]|reflexivity]|apply der_cst; reflexivity|reflexivity]|reflexivity]
    |eapply der_mul; [apply der_ax|apply der_cst; reflexivity|reflexivity]|reflexivity]
    |eapply der_mul; [eapply der_add; [eapply der_sc; [apply der_ky|reflexivity]|eapply der_sc; [apply der_kz|reflexivity]|reflexivity]|apply der_cst; reflexivity|reflexivity]|reflexivity]
    |eapply der_mul; [eapply der_add; [eapply der_sc; [apply der_ky|reflexivity]|eapply der_sc; [apply der_kz|reflexivity]|reflexivity]|apply der_cst; reflexivity|reflexivity]|].
  cbv beta. unfold wj, twist. rewrite H1, H2. destruct (vk && bends b)%bool; ring.
Qed.
Lemma der_sf G q d : is_derive (fun s => sf G q (u s) d) t0 (sf G q du d).
Proof.
  unfold sf. eapply der_sc; [eapply der_add; [eapply der_mul; [apply der_gamma|apply der_cst; reflexivity|reflexivity]|eapply der_mul; [apply der_gamma|apply der_cst; reflexivity|reflexivity]|reflexivity]|].
  cbv beta. ring.
Qed.
Lemma der_energy qs sq S G : (forall q, In q qs -> regular (S q)) -> (shears b = true -> forall q, In q sq -> equal_shear (G q)) ->
  is_derive (fun s => beam_energy vk b n qs sq S G (u s)) t0 (WF qs sq S G (u t0) du).
Proof.
  intros HS HG. unfold beam_energy, WF. eapply der_add; [| |reflexivity].
  - apply (der_int qs (fun s q => density vk b n (S q) q (u s))). intros q Hq. apply der_density. auto.
  - destruct (shears b); [|apply der_cst; reflexivity].
    apply (der_int sq (fun s q => shear_density n (G q) q (u s))). intros q Hq. apply der_shear_density. auto.
Qed.
Lemma der_WF qs sq S G d : (forall q, In q qs -> sA (S q) 0%nat 1%nat = 0 /\ sA (S q) 1%nat 0%nat = 0) ->
  is_derive (fun s => WF qs sq S G (u s) d) t0 (WJ qs sq S G (u t0) d du).
Proof.
  intros HS. unfold WF, WJ. eapply der_add; [| |reflexivity].
  - apply (der_int qs (fun s q => wf (S q) q (u s) d)). intros q Hq. destruct (HS q Hq). now apply der_wf.
  - destruct (shears b); [|apply der_cst; reflexivity].
    apply (der_int sq (fun s q => sf (G q) q (u s) d)). intros q Hq. apply der_sf.
Qed.
End H.
End B.
