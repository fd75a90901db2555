From Coq Require Import Reals Lra.
From Coquelicot Require Import Coquelicot.
From Coq Require Import List Arith Bool Lia.
From Verif Require Import Base BaseLemmas RBool Sens_Spec Sens_Proofs Sens_Proofs2 Heat_Proofs Solid_Model Solid_Spec Solid_Proofs2 Dof6_Model Dof6_Proofs Beam_Model Beam_Spec Beam_Proofs Beam_Proofs2 Beam_Props.
Import ListNotations.
Open Scope R_scope.

(** *** given resultants *)
Section R.
Variable n : nat.
Variable vk : bool.
Variable b : bending.
Variable t : frame.
Hypothesis FIT : fits b n.
Lemma prestress_f on qs PA PB U req f j d :
  dot6 n (fst (prestress_residual n vk b t on qs PA PB U req f j)) d =
  dot6 n f d + (if on then integral qs (fun q => rf n vk b (fun q => vec_A (PA q)) (fun q => vec_B (PB q)) q (to_local t U) (to_local t d)) else 0).
Proof.
  unfold prestress_residual. destruct on; cbn [fst]; [|ring]. rewrite dot_plusf, dot_global, resultant_f by auto. ring.
Qed.
Lemma prestress_j on qs PA PB U f j d v :
  bil n (snd (prestress_residual n vk b t on qs PA PB U true f j)) d v =
  bil n j d v + (if on then integral qs (fun q => rj n vk b PA q (to_local t d) (to_local t v)) else 0).
Proof.
  unfold prestress_residual. destruct on; cbn [snd]; [|ring]. destruct vk eqn:E; cbn [andb].
  - rewrite bil_plusj, bil_global, resultant_j by auto. ring.
  - rewrite (integral_ext _ _ (fun _ => 0)) by (intros; unfold rj; now rewrite andb_false_r). rewrite integral_0 by auto. ring.
Qed.
Lemma thermal_f sc qs EA EB dt U req f j d :
  dot6 n (fst (thermal_residual n vk b t sc qs EA EB dt U req f j)) d =
  dot6 n f d - integral qs (fun q => rf n vk b (fun q r => EA q r * dt q) (fun q r => EB q r * dt q) q (to_local t U) (to_local t d)).
Proof. unfold thermal_residual. cbn [fst]. rewrite dot_plusf, dot_global, resultant_f by auto. ring. Qed.
Lemma thermal_j sc qs EA EB dt U f j d v :
  bil n (snd (thermal_residual n vk b t sc qs EA EB dt U true f j)) d v =
  bil n j d v - match sc with Some x => x | None => 1 end * integral qs (fun q => rj n vk b (fun q => mat00 (EA q 0%nat * dt q)) q (to_local t d) (to_local t v)).
Proof.
  unfold thermal_residual. cbn [snd]. destruct vk eqn:E; cbn [andb].
  - rewrite bil_plusj, bil_global, resultant_j by auto. ring.
  - rewrite (integral_ext _ _ (fun _ => 0)) by (intros; unfold rj; now rewrite andb_false_r). rewrite integral_0 by auto. ring.
Qed.
Lemma thermal_sens_f qs EA EB EA' EB' dt dt' U req f j d :
  dot6 n (fst (thermal_residual_sensitivity n vk b t qs EA EB EA' EB' dt dt' U req f j)) d =
  dot6 n f d - integral qs (fun q => rf n vk b (fun q r => EA q r * dt' q + EA' q r * dt q) (fun q r => EB q r * dt' q + EB' q r * dt q) q (to_local t U) (to_local t d)).
Proof. unfold thermal_residual_sensitivity. cbn [fst]. rewrite dot_plusf, dot_global, resultant_f by auto. ring. Qed.
Lemma thermal_sens_j qs EA EB EA' EB' dt dt' U f j d v :
  bil n (snd (thermal_residual_sensitivity n vk b t qs EA EB EA' EB' dt dt' U true f j)) d v =
  bil n j d v - integral qs (fun q => rj n vk b (fun q => mat00 (EA q 0%nat * dt' q + EA' q 0%nat * dt q)) q (to_local t d) (to_local t v)).
Proof.
  unfold thermal_residual_sensitivity. cbn [snd]. destruct vk eqn:E; cbn [andb].
  - rewrite bil_plusj, bil_global, resultant_j by auto. ring.
  - rewrite (integral_ext _ _ (fun _ => 0)) by (intros; unfold rj; now rewrite andb_false_r). rewrite integral_0 by auto. ring.
Qed.
Lemma der_work (u : R -> dofs) du t0 qs N T My Mz : history6 n t0 u du -> is_derive (fun s => work_of vk b n qs N T My Mz (u s)) t0
  (integral qs (fun q => N q * dax n vk b q (u t0) du + T q * twist n q du + My q * ky n b q du + Mz q * kz n b q du)).
Proof.
  intros HU. apply (der_int qs (fun s q => N q * axial (vk && bends b) n q (u s) + T q * twist n q (u s) + My q * curv_y b n q (u s) + Mz q * curv_z b n q (u s))).
  intros q Hq. eapply der_add; [eapply der_add; [eapply der_add|..]|..].
  - eapply der_sc; [exact (der_ax n vk b u du t0 HU q)|reflexivity].
  - eapply der_sc; [apply (der_dx n u du t0 HU q 3); lia|reflexivity].
  - reflexivity.
  - eapply der_sc; [exact (der_ky n b FIT u du t0 HU q)|reflexivity].
  - reflexivity.
  - eapply der_sc; [exact (der_kz n b FIT u du t0 HU q)|reflexivity].
  - reflexivity.
Qed.
End R.
Lemma no_bend_k b n q u : bends b = false -> ky n b q u = 0 /\ kz n b q u = 0.
Proof. destruct b; try discriminate. intros _. split; reflexivity. Qed.

(** C144: initial stresses and thermal stresses act as the forces that do work on the strains *)
Theorem C144_prestress_partial : forall n vk b t qs PA PB (U : R -> dofs) dU (t0 : R) req f j, fits b n ->
  (bends b = true -> forall q, In q qs -> PB q 0%nat 0%nat = PB q 0%nat 1%nat) -> history6 n t0 U dU ->
  is_derive (fun s => work_of vk b n qs (fun q => PA q 0%nat 0%nat) (fun _ => 0) (fun q => PB q 0%nat 0%nat) (fun q => PB q 0%nat 1%nat) (in_axes t (U s))) t0
    (dot6 n (minusf (fst (prestress_residual n vk b t true qs PA PB (U t0) req f j)) f) dU).
Proof.
  intros n vk b t qs PA PB U dU t0 req f j FIT HB HU. rewrite dot_minusf, prestress_f by auto.
  eapply der_eq; [|symmetry; apply pml]. rewrite ?in_axes_eq.
  apply (der_fun (fun s => work_of vk b n qs (fun q => PA q 0%nat 0%nat) (fun _ => 0) (fun q => PB q 0%nat 0%nat) (fun q => PB q 0%nat 1%nat) (to_local t (U s)))); [intros; now rewrite in_axes_eq|].
  eapply der_eq; [apply (der_work n vk b FIT (fun s => to_local t (U s)) (to_local t dU)); now apply history_local|].
  apply integral_ext. intros q Hq. unfold rf. cbn [vec_A vec_B]. destruct (bends b) eqn:E.
  - rewrite <- (HB eq_refl q Hq). ring.
  - destruct (no_bend_k b n q (to_local t dU) E) as [-> ->]. ring.
Qed.
Print Assumptions C144_prestress_partial.
Theorem C144_prestress_jacobian : forall n vk b t on qs PA PB (U : R -> dofs) dU (t0 : R) req f j c a, fits b n ->
  history6 n t0 U dU -> (c < 6)%nat -> (a < n)%nat ->
  is_derive (fun s => fst (prestress_residual n vk b t on qs PA PB (U s) req f j) c a) t0
    (times6 n (minusj (snd (prestress_residual n vk b t on qs PA PB (U t0) true f j)) j) dU c a).
Proof.
  intros n vk b t on qs PA PB U dU t0 req f j c a FIT HU Hc Ha. rewrite times_bil, bil_minusj, prestress_j by auto.
  eapply der_eq; [|symmetry; apply pml].
  apply (der_fun (fun s => dot6 n f (unit_dof c a) + (if on then integral qs (fun q => rf n vk b (fun q => vec_A (PA q)) (fun q => vec_B (PB q)) q (to_local t (U s)) (to_local t (unit_dof c a))) else 0))).
  - intros s. cbv beta. rewrite <- (dot_unit n (fst _) c a), prestress_f by auto. reflexivity.
  - eapply der_add; [apply der_cst; reflexivity| |symmetry; apply Rplus_0_l]. destruct on; [|apply der_cst; reflexivity].
    apply (der_int qs (fun s q => rf n vk b (fun q => vec_A (PA q)) (fun q => vec_B (PB q)) q (to_local t (U s)) (to_local t (unit_dof c a)))). intros q _.
    eapply der_eq; [apply (der_rf n vk b (fun s => to_local t (U s)) (to_local t dU)); now apply history_local|]. reflexivity.
Qed.
Print Assumptions C144_prestress_jacobian.
Definition PM (x y : R) : nat -> nat -> R := fun i l => match i, l with O, O => x | O, _ => y | _, _ => 0 end.
Theorem C144_prestress_refuted : exists n b qs PA PB (U : R -> dofs) dU t0 e, fits b n /\ bends b = true /\ history6 n t0 U dU /\
  is_derive (fun s => work_of false b n qs (fun q => PA q 0%nat 0%nat) (fun _ => 0) (fun q => PB q 0%nat 0%nat) (fun q => PB q 0%nat 1%nat) (in_axes None (U s))) t0 e /\
  forall req f j, dot6 n (minusf (fst (prestress_residual n false b None true qs PA PB (U t0) req f j)) f) dU <> e.
Proof.
  exists 2%nat, TIMOSHENKO, [q0 1], (fun _ => PM 0 0), (fun _ => PM 1 2), (ramp 4 1), (unit_dof 4 1), 0, 2.
  split; [exact I|]. split; [reflexivity|]. split; [apply ramp_history|]. split.
  - apply (der_fun (fun s => work_of false TIMOSHENKO 2 [q0 1] (fun q => 0) (fun _ => 0) (fun q => 1) (fun q => 2) (ramp 4 1 s))); [intros; reflexivity|].
    eapply der_eq; [apply (der_work 2 false TIMOSHENKO I (ramp 4 1) (unit_dof 4 1)); apply ramp_history|].
    rewrite integral_cons, integral_nil. unfold ky, kz, curv_y, curv_z, dax, twist, dx, unit_dof. cbn [andb bends sum Nat.eqb q0 dphi jxw]. ring.
  - intros req f j. rewrite dot_minusf, prestress_f by exact I. cbn [to_local]. rewrite integral_cons, integral_nil.
    unfold rf, ky, kz, curv_y, curv_z, dax, twist, dx, unit_dof. cbn [andb bends sum Nat.eqb q0 dphi jxw vec_A vec_B PM]. lra.
Qed.
Print Assumptions C144_prestress_refuted.
Theorem C144_thermal_partial : forall n vk b t sc qs EA EB dt (U : R -> dofs) dU (t0 : R) req f j, fits b n ->
  (bends b = true -> forall q, In q qs -> EB q 0%nat * dt q = EB q 1%nat * dt q) -> history6 n t0 U dU ->
  is_derive (fun s => - work_of vk b n qs (fun q => EA q 0%nat * dt q) (fun q => EA q 1%nat * dt q) (fun q => EB q 0%nat * dt q) (fun q => EB q 1%nat * dt q) (in_axes t (U s))) t0
    (dot6 n (minusf (fst (thermal_residual n vk b t sc qs EA EB dt (U t0) req f j)) f) dU).
Proof.
  intros n vk b t sc qs EA EB dt U dU t0 req f j FIT HB HU. rewrite dot_minusf, thermal_f by auto.
  apply (der_fun (fun s => -1 * work_of vk b n qs (fun q => EA q 0%nat * dt q) (fun q => EA q 1%nat * dt q) (fun q => EB q 0%nat * dt q) (fun q => EB q 1%nat * dt q) (to_local t (U s)))); [intros; rewrite in_axes_eq; ring|].
  eapply der_sc; [apply (der_work n vk b FIT (fun s => to_local t (U s)) (to_local t dU)); now apply history_local|].
  match goal with |- _ - ?x - _ = -1 * ?y => cut (x = y); [intros EQ; rewrite EQ; clear EQ; cbv beta; unfold minus; lra|] end.
  apply integral_ext. intros q Hq. unfold rf. destruct (bends b) eqn:E.
  - rewrite <- (HB eq_refl q Hq). ring.
  - destruct (no_bend_k b n q (to_local t dU) E) as [-> ->]. ring.
Qed.
Print Assumptions C144_thermal_partial.
Theorem C144_thermal_jacobian : forall n vk b t sc qs EA EB dt (U : R -> dofs) dU (t0 : R) req f j c a, fits b n ->
  sc = None \/ sc = Some 1 -> history6 n t0 U dU -> (c < 6)%nat -> (a < n)%nat ->
  is_derive (fun s => fst (thermal_residual n vk b t sc qs EA EB dt (U s) req f j) c a) t0
    (times6 n (minusj (snd (thermal_residual n vk b t sc qs EA EB dt (U t0) true f j)) j) dU c a).
Proof.
  intros n vk b t sc qs EA EB dt U dU t0 req f j c a FIT HC HU Hc Ha. rewrite times_bil, bil_minusj, thermal_j by auto.
  apply (der_fun (fun s => dot6 n f (unit_dof c a) + -1 * integral qs (fun q => rf n vk b (fun q r => EA q r * dt q) (fun q r => EB q r * dt q) q (to_local t (U s)) (to_local t (unit_dof c a))))).
  - intros s. cbv beta. rewrite <- (dot_unit n (fst _) c a), thermal_f by auto. ring.
  - eapply der_add; [apply der_cst; reflexivity| |].
    + eapply der_sc; [|reflexivity].
      apply (der_int qs (fun s q => rf n vk b (fun q r => EA q r * dt q) (fun q r => EB q r * dt q) q (to_local t (U s)) (to_local t (unit_dof c a)))). intros q _.
      apply (der_rf n vk b (fun s => to_local t (U s)) (to_local t dU)). now apply history_local.
    + cbv beta. destruct HC as [-> | ->]; ring.
Qed.
Print Assumptions C144_thermal_jacobian.
Theorem C144_thermal_scaling_refuted : exists n b qs EA EB dt (U : R -> dofs) dU t0 c a, fits b n /\ history6 n t0 U dU /\ (c < 6)%nat /\ (a < n)%nat /\
  forall req, ~ is_derive (fun s => fst (thermal_residual n true b None (Some (1/2)) qs EA EB dt (U s) req zf zj) c a) t0
    (times6 n (minusj (snd (thermal_residual n true b None (Some (1/2)) qs EA EB dt (U t0) true zf zj)) zj) dU c a).
Proof.
  exists 2%nat, TIMOSHENKO, [q0 1], (fun _ _ => 1), (fun _ _ => 0), (fun _ => 1), (ramp 1 1), (unit_dof 1 1), 0, 1%nat, 1%nat.
  split; [exact I|]. split; [apply ramp_history|]. split; [lia|]. split; [lia|]. intros req H.
  pose proof (C144_thermal_jacobian 2 true TIMOSHENKO None None [q0 1] (fun _ _ => 1) (fun _ _ => 0) (fun _ => 1) (ramp 1 1) (unit_dof 1 1) 0 req zf zj 1 1 I (or_introl eq_refl) (ramp_history _ _ _ _) ltac:(lia) ltac:(lia)) as K.
  assert (E := eq_trans (eq_sym (is_derive_unique _ _ _ H)) (is_derive_unique _ _ _ K)). revert E. clear K H.
  rewrite !times_bil, !bil_minusj, !thermal_j by (try exact I; lia). rewrite !bil_zj. cbn [to_local]. rewrite !integral_cons, !integral_nil.
  unfold rj, dx, unit_dof. cbn [andb bends sum Nat.eqb q0 dphi jxw mat00]. lra.
Qed.
Print Assumptions C144_thermal_scaling_refuted.
Theorem C144_thermal_refuted : exists n b qs EA EB dt (U : R -> dofs) dU t0 e, fits b n /\ bends b = true /\ history6 n t0 U dU /\
  is_derive (fun s => - work_of false b n qs (fun q => EA q 0%nat * dt q) (fun q => EA q 1%nat * dt q) (fun q => EB q 0%nat * dt q) (fun q => EB q 1%nat * dt q) (in_axes None (U s))) t0 e /\
  forall sc req f j, dot6 n (minusf (fst (thermal_residual n false b None sc qs EA EB dt (U t0) req f j)) f) dU <> e.
Proof.
  exists 2%nat, TIMOSHENKO, [q0 1], (fun _ _ => 0), (fun _ r => match r with O => 1 | _ => 2 end), (fun _ => 1), (ramp 4 1), (unit_dof 4 1), 0, (-2).
  split; [exact I|]. split; [reflexivity|]. split; [apply ramp_history|]. split.
  - apply (der_fun (fun s => -1 * work_of false TIMOSHENKO 2 [q0 1] (fun q => 0 * 1) (fun _ => 0 * 1) (fun q => 1 * 1) (fun q => 2 * 1) (ramp 4 1 s))).
    { intros. cbv beta. change (in_axes None (ramp 4 1 t)) with (ramp 4 1 t). cbv beta. ring. }
    eapply der_sc; [apply (der_work 2 false TIMOSHENKO I (ramp 4 1) (unit_dof 4 1)); apply ramp_history|].
    rewrite integral_cons, integral_nil. unfold ky, kz, curv_y, curv_z, dax, twist, dx, unit_dof. cbn [andb bends sum Nat.eqb q0 dphi jxw]. ring.
  - intros sc req f j. rewrite dot_minusf, thermal_f by exact I. cbn [to_local]. rewrite integral_cons, integral_nil.
    unfold rf, ky, kz, curv_y, curv_z, dax, twist, dx, unit_dof. cbn [andb bends sum Nat.eqb q0 dphi jxw]. lra.
Qed.
Print Assumptions C144_thermal_refuted.
(** symmetric sections with equal moments meet the hypothesis; the prestress of a straight bar loaded on its axis has none *)
Example C144_example : (forall q, In q [q0 1] -> PM 0 0 0%nat 0%nat = PM 0 0 0%nat 1%nat) /\
  dot6 2 (minusf (fst (prestress_residual 2 true TIMOSHENKO None true [q0 1] (fun _ => PM 3 0) (fun _ => PM 0 0) (ramp 1 1 2) true zf zj)) zf) (unit_dof 1 1) = 6.
Proof.
  split; [reflexivity|]. rewrite dot_minusf, prestress_f by exact I. cbn [to_local]. rewrite integral_cons, integral_nil.
  unfold rf, ky, kz, curv_y, curv_z, dax, twist, dx, unit_dof, ramp. cbn [andb bends sum Nat.eqb q0 dphi jxw vec_A vec_B PM]. rewrite dot_zf. ring.
Qed.

(** C145: parameter derivatives of the forces and Jacobians of C144 *)
Lemma der_rf_v n vk b (vA vB : R -> qpt -> nat -> R) (vA' vB' : qpt -> nat -> R) (t0 : R) q u d :
  vector_derivative 2 (fun s => vA s q) (vA' q) t0 -> vector_derivative 2 (fun s => vB s q) (vB' q) t0 ->
  is_derive (fun s => rf n vk b (vA s) (vB s) q u d) t0 (rf n vk b vA' vB' q u d).
Proof.
  intros HA HB. unfold rf.
  assert (A0 := HA 0%nat ltac:(lia)). assert (A1 := HA 1%nat ltac:(lia)). assert (B0 := HB 0%nat ltac:(lia)).
  eapply (der_add t0 (fun s => vA s q 0%nat * dax n vk b q u d + vA s q 1%nat * twist n q d) (fun s => if bends b then vB s q 0%nat * (ky n b q d + kz n b q d) else 0)).
  - eapply (der_add t0 (fun s => vA s q 0%nat * dax n vk b q u d) (fun s => vA s q 1%nat * twist n q d)).
    + eapply (der_mul t0 (fun s => vA s q 0%nat) (fun _ => dax n vk b q u d)); [exact A0|apply der_cst; reflexivity|reflexivity].
    + eapply (der_mul t0 (fun s => vA s q 1%nat) (fun _ => twist n q d)); [exact A1|apply der_cst; reflexivity|reflexivity].
    + reflexivity.
  - instantiate (1 := if bends b then vB' q 0%nat * (ky n b q d + kz n b q d) else 0). destruct (bends b); [|apply der_cst; reflexivity].
    eapply (der_mul t0 (fun s => vB s q 0%nat) (fun _ => ky n b q d + kz n b q d)); [exact B0|apply der_cst; reflexivity|ring].
  - cbv beta. destruct (bends b); lra.
Qed.
Lemma vecA_der (P : R -> nat -> nat -> R) P' (t0 : R) : matrix_derivative P P' t0 -> vector_derivative 2 (fun s => vec_A (P s)) (vec_A P') t0.
Proof. intros H r Hr. destruct r; cbn [vec_A]; [apply H; lia|apply (der_const 0)]. Qed.
Lemma vecB_der (P : R -> nat -> nat -> R) P' (t0 : R) : matrix_derivative P P' t0 -> vector_derivative 2 (fun s => vec_B (P s)) (vec_B P') t0.
Proof. intros H r Hr. destruct r as [|[|r]]; cbn [vec_B]; [apply H; lia|apply H; lia|lia]. Qed.
Lemma der_rj n vk b (M : R -> qpt -> nat -> nat -> R) M' (t0 : R) q d v : is_derive (fun s => M s q 0%nat 0%nat) t0 (M' q 0%nat 0%nat) ->
  is_derive (fun s => rj n vk b (M s) q d v) t0 (rj n vk b M' q d v).
Proof.
  intros H. unfold rj. destruct (bends b && vk)%bool; [|apply (der_const 0)]. eapply (der_mul t0 (fun s => M s q 0%nat 0%nat) (fun _ => dx n q d 1 * dx n q v 1 + dx n q d 2 * dx n q v 2)); [exact H|apply der_cst; reflexivity|ring].
Qed.
Lemma entry n j c a d e : (c < 6)%nat -> (a < n)%nat -> (d < 6)%nat -> (e < n)%nat -> j c a d e = bil n j (unit_dof c a) (unit_dof d e).
Proof. intros. rewrite <- times_bil, times_unit by auto. reflexivity. Qed.
Theorem C145_prestress : forall n vk b t on qs (PA PB : R -> qpt -> nat -> nat -> R) PA' PB' U (t0 : R) req req' f j f0 j0 c a, fits b n ->
  (forall q, In q qs -> matrix_derivative (fun s => PA s q) (PA' q) t0 /\ matrix_derivative (fun s => PB s q) (PB' q) t0) ->
  (c < 6)%nat -> (a < n)%nat ->
  is_derive (fun s => fst (prestress_residual n vk b t on qs (PA s) (PB s) U req f j) c a) t0
    (fst (prestress_residual n vk b t on qs PA' PB' U req' f0 j0) c a - f0 c a) /\
  forall d e, (d < 6)%nat -> (e < n)%nat ->
  is_derive (fun s => snd (prestress_residual n vk b t on qs (PA s) (PB s) U true f j) c a d e) t0
    (snd (prestress_residual n vk b t on qs PA' PB' U true f0 j0) c a d e - j0 c a d e).
Proof.
  intros n vk b t on qs PA PB PA' PB' U t0 req req' f j f0 j0 c a FIT HD Hc Ha. split.
  - rewrite <- (dot_unit n (fst _) c a), prestress_f, dot_unit by auto. eapply der_eq; [|symmetry; apply pml].
    apply (der_fun (fun s => f c a + (if on then integral qs (fun q => rf n vk b (fun q => vec_A (PA s q)) (fun q => vec_B (PB s q)) q (to_local t U) (to_local t (unit_dof c a))) else 0))).
    { intros s. cbv beta. rewrite <- (dot_unit n (fst _) c a), prestress_f, dot_unit by auto. reflexivity. }
    eapply der_add; [apply der_cst; reflexivity| |symmetry; apply Rplus_0_l]. destruct on; [|apply der_cst; reflexivity].
    apply (der_int qs (fun s q => rf n vk b (fun q => vec_A (PA s q)) (fun q => vec_B (PB s q)) q (to_local t U) (to_local t (unit_dof c a)))). intros q Hq.
    destruct (HD q Hq). apply (der_rf_v n vk b (fun s q => vec_A (PA s q)) (fun s q => vec_B (PB s q))); [now apply vecA_der|now apply vecB_der].
  - intros d e Hd He. rewrite (entry n (snd _) c a d e), prestress_j, <- entry by auto. eapply der_eq; [|symmetry; apply pml].
    apply (der_fun (fun s => j c a d e + (if on then integral qs (fun q => rj n vk b (PA s) q (to_local t (unit_dof c a)) (to_local t (unit_dof d e))) else 0))).
    { intros s. cbv beta. rewrite (entry n (snd _) c a d e), prestress_j, <- entry by auto. reflexivity. }
    eapply der_add; [apply der_cst; reflexivity| |symmetry; apply Rplus_0_l]. destruct on; [|apply der_cst; reflexivity].
    apply (der_int qs (fun s q => rj n vk b (PA s) q (to_local t (unit_dof c a)) (to_local t (unit_dof d e)))). intros q Hq.
    destruct (HD q Hq). apply der_rj. apply H; lia.
Qed.
Print Assumptions C145_prestress.
Lemma prod_vec (E : R -> nat -> R) E' (dt : R -> R) dt' (t0 : R) : vector_derivative 2 E E' t0 -> is_derive dt t0 dt' ->
  vector_derivative 2 (fun s r => E s r * dt s) (fun r => E t0 r * dt' + E' r * dt t0) t0.
Proof. intros H H' r Hr. eapply (der_mul t0 (fun s => E s r) dt); [now apply H|exact H'|ring]. Qed.
Theorem C145_thermal : forall n vk b t sc qs (EA EB : R -> qpt -> nat -> R) EA' EB' (dt : R -> qpt -> R) dt' U (t0 : R) req req' f j f0 j0 c a, fits b n ->
  (forall q, In q qs -> vector_derivative 2 (fun s => EA s q) (EA' q) t0 /\ vector_derivative 2 (fun s => EB s q) (EB' q) t0 /\ is_derive (fun s => dt s q) t0 (dt' q)) ->
  (c < 6)%nat -> (a < n)%nat ->
  is_derive (fun s => fst (thermal_residual n vk b t sc qs (EA s) (EB s) (dt s) U req f j) c a) t0
    (fst (thermal_residual_sensitivity n vk b t qs (EA t0) (EB t0) EA' EB' (dt t0) dt' U req' f0 j0) c a - f0 c a) /\
  forall d e, (d < 6)%nat -> (e < n)%nat -> sc = None \/ sc = Some 1 ->
  is_derive (fun s => snd (thermal_residual n vk b t sc qs (EA s) (EB s) (dt s) U true f j) c a d e) t0
    (snd (thermal_residual_sensitivity n vk b t qs (EA t0) (EB t0) EA' EB' (dt t0) dt' U true f0 j0) c a d e - j0 c a d e).
Proof.
  intros n vk b t sc qs EA EB EA' EB' dt dt' U t0 req req' f j f0 j0 c a FIT HD Hc Ha. split.
  - rewrite <- (dot_unit n (fst _) c a), thermal_sens_f, dot_unit by auto.
    apply (der_fun (fun s => f c a + -1 * integral qs (fun q => rf n vk b (fun q r => EA s q r * dt s q) (fun q r => EB s q r * dt s q) q (to_local t U) (to_local t (unit_dof c a))))).
    { intros s. cbv beta. rewrite <- (dot_unit n (fst _) c a), thermal_f, dot_unit by auto. ring. }
    eapply der_add; [apply der_cst; reflexivity| |].
    + eapply der_sc; [|reflexivity].
      apply (der_int qs (fun s q => rf n vk b (fun q r => EA s q r * dt s q) (fun q r => EB s q r * dt s q) q (to_local t U) (to_local t (unit_dof c a)))). intros q Hq.
      destruct (HD q Hq) as (H1 & H2 & H3).
      apply (der_rf_v n vk b (fun s q r => EA s q r * dt s q) (fun s q r => EB s q r * dt s q) (fun q r => EA t0 q r * dt' q + EA' q r * dt t0 q) (fun q r => EB t0 q r * dt' q + EB' q r * dt t0 q));
      [exact (prod_vec (fun s => EA s q) (EA' q) (fun s => dt s q) (dt' q) t0 H1 H3)|exact (prod_vec (fun s => EB s q) (EB' q) (fun s => dt s q) (dt' q) t0 H2 H3)].
    + cbv beta. ring.
  - intros d e Hd He HC. rewrite (entry n (snd _) c a d e), thermal_sens_j, <- entry by auto.
    apply (der_fun (fun s => j c a d e + -1 * integral qs (fun q => rj n vk b (fun q => mat00 (EA s q 0%nat * dt s q)) q (to_local t (unit_dof c a)) (to_local t (unit_dof d e))))).
    { intros s. cbv beta. rewrite (entry n (snd _) c a d e), thermal_j, <- entry by auto. destruct HC as [-> | ->]; ring. }
    eapply der_add; [apply der_cst; reflexivity| |].
    + eapply der_sc; [|reflexivity].
      apply (der_int qs (fun s q => rj n vk b (fun q => mat00 (EA s q 0%nat * dt s q)) q (to_local t (unit_dof c a)) (to_local t (unit_dof d e)))). intros q Hq.
      destruct (HD q Hq) as (H1 & H2 & H3).
      apply (der_rj n vk b (fun s q => mat00 (EA s q 0%nat * dt s q)) (fun q => mat00 (EA t0 q 0%nat * dt' q + EA' q 0%nat * dt t0 q))).
      apply (prod_vec (fun s => EA s q) (EA' q) (fun s => dt s q) (dt' q) t0 H1 H3 0%nat). lia.
    + cbv beta. ring.
Qed.
Print Assumptions C145_thermal.
Example C145_example : matrix_derivative (fun s => PM s (2 * s)) (PM 1 2) 3 /\ vector_derivative 2 (fun s r => s) (fun _ => 1) 3.
Proof.
  split.
  - intros i l Hi Hl. destruct i as [|[|i]]; [| |lia]; (destruct l as [|[|l]]; [| |lia]); cbn [PM]; try apply id_der; try apply (der_const 0).
    eapply der_sc; [apply id_der|ring].
  - intros r Hr. apply id_der.
Qed.

(** C146: kinematics of the bending operators *)
Theorem C146_fibre : forall n b q y z u, fits b n ->
  vm n (fst (bend_yz b q y z)) u 0 + vm n (snd (bend_yz b q y z)) u 0 = y * curv_y b n q u + z * curv_z b n q u.
Proof. intros. now rewrite vm_yz_y, vm_yz_z. Qed.
Print Assumptions C146_fibre.
Theorem C146_cubic : forall L xi q y z c0 c1 c2 c3 d0 d1 d2 d3 (u : dofs), L <> 0 ->
  (u 1 0 = cubic c0 c1 c2 c3 0)%nat -> (u 1 1 = cubic c0 c1 c2 c3 L)%nat -> (u 5 0 = cubic' c1 c2 c3 0)%nat -> (u 5 1 = cubic' c1 c2 c3 L)%nat ->
  (u 2 0 = cubic d0 d1 d2 d3 0)%nat -> (u 2 1 = cubic d0 d1 d2 d3 L)%nat -> (- u 4 0 = cubic' d1 d2 d3 0)%nat -> (- u 4 1 = cubic' d1 d2 d3 L)%nat ->
  vm 2 (fst (bend_yz (BERNOULLI L xi) q y z)) u 0 = - y * cubic'' c2 c3 (L * (1 + xi q) / 2) /\
  vm 2 (snd (bend_yz (BERNOULLI L xi) q y z)) u 0 = - z * cubic'' d2 d3 (L * (1 + xi q) / 2).
Proof.
  intros L xi q y z c0 c1 c2 c3 d0 d1 d2 d3 u HL E1 E2 E3 E4 E5 E6 E7 E8.
  rewrite vm_yz_y, vm_yz_z by (split; auto). cbn [curv_y curv_z]. rewrite E1, E2, E3, E4, E5, E6, E7, E8.
  unfold hermite'', cubic'', cubic, cubic'. split; field; auto.
Qed.
Print Assumptions C146_cubic.
Lemma hermite_line L p t x : L <> 0 -> hermite'' L p t (p + t * L) t x = 0.
Proof. intros. unfold hermite'', cubic''. field. auto. Qed.
Theorem C146_rigid : forall n vk b t x T Th qs sq S G U req f j, fits b n -> nodes_at b x ->
  (forall q, In q qs \/ In q sq -> complete1 n x q) -> (vk = true -> Th 1%nat = 0 /\ Th 2%nat = 0) ->
  (forall c a, (c < 6)%nat -> (a < n)%nat -> in_axes t U c a = small_motion x T Th c a) ->
  forall c a, (c < 6)%nat -> (a < n)%nat -> fst (internal_residual n vk b t qs sq S G U req f j) c a = f c a.
Proof.
  intros n vk b t x T Th qs sq S G U req f j FIT HN HC HV HU c a Hc Ha. rewrite comp_f, dot_unit by auto.
  rewrite in_axes_eq in HU. set (u := to_local t U) in *.
  assert (DX : forall q r, (r < 6)%nat -> In q qs \/ In q sq -> dx n q u r = match r with 1%nat => Th 2%nat | 2%nat => - Th 1%nat | _ => 0 end).
  { intros q r Hr Hq. destruct (HC q Hq) as (_ & D0 & D1). unfold dx. rewrite (sum_ext _ _ (fun e => dphi q e 0%nat * small_motion x T Th r e)) by (intros; now rewrite HU).
    do 6 (destruct r as [|r]; [cbn [small_motion];
      first [rewrite sum_scal_r, D0; ring
        |transitivity (T 1%nat * sum n (fun e => dphi q e 0%nat) + Th 2%nat * sum n (fun e => dphi q e 0%nat * x e)); [rewrite <- !sum_scal_l, <- sum_plus; apply sum_ext; intros; ring|rewrite D0, D1; ring]
        |transitivity (T 2%nat * sum n (fun e => dphi q e 0%nat) + - Th 1%nat * sum n (fun e => dphi q e 0%nat * x e)); [rewrite <- !sum_scal_l, <- sum_plus; apply sum_ext; intros; ring|rewrite D0, D1; ring]]|]). lia. }
  assert (VA : forall q r, (3 <= r < 6)%nat -> In q qs \/ In q sq -> value n q u r = Th (r - 3)%nat).
  { intros q r Hr Hq. destruct (HC q Hq) as (D0 & _ & _). unfold value. rewrite (sum_ext _ _ (fun e => phi q e * Th (r - 3)%nat)).
    - rewrite sum_scal_r, D0. ring.
    - intros e He. rewrite HU by lia. destruct r as [|[|[|[|[|[|r]]]]]]; try lia; reflexivity. }
  assert (KY : forall q, In q qs \/ In q sq -> ky n b q u = 0 /\ kz n b q u = 0).
  { intros q Hq. unfold ky, kz. destruct b as [|L xi|]; cbn [curv_y curv_z]; [split; reflexivity| |rewrite !DX by (auto; lia); split; ring].
    destruct FIT as [-> HL]. cbn [nodes_at] in HN. rewrite !HU by lia. cbn [small_motion]. split.
    - replace (T 1%nat + Th 2%nat * x 1%nat) with (T 1%nat + Th 2%nat * x 0%nat + Th 2%nat * L) by (rewrite <- HN; ring). rewrite hermite_line by auto. ring.
    - replace (T 2%nat - Th 1%nat * x 1%nat) with (T 2%nat - Th 1%nat * x 0%nat + - Th 1%nat * L) by (rewrite <- HN; ring). rewrite hermite_line by auto. ring. }
  replace (WF n vk b qs sq S G u (to_local t (unit_dof c a))) with 0; [ring|]. unfold WF.
  rewrite (integral_ext qs _ (fun _ => 0)).
  - rewrite integral_0 by auto. destruct (shears b); [|ring]. rewrite (integral_ext sq _ (fun _ => 0)); [rewrite integral_0 by auto; ring|].
    intros q Hq. unfold sf, gamma. rewrite !DX, !VA by (auto; lia). cbn [Nat.sub]. ring.
  - intros q Hq. unfold wf, force, ax, axial, twist. destruct (KY q (or_introl Hq)) as [-> ->]. rewrite !DX by (auto; lia).
    destruct vk; cbn [andb]; [destruct (HV eq_refl) as [-> ->]|]; destruct (bends b); ring.
Qed.
Print Assumptions C146_rigid.
Example C146_example : fits (BERNOULLI 1 (fun _ => 0)) 2 /\ nodes_at (BERNOULLI 1 (fun _ => 0)) INR /\ complete1 2 INR (q0 1).
Proof. repeat split; try lra; cbn; lra. Qed.

(** C147: pressure on the end of a beam *)
Lemma end_dot n side p d : dot6 n (end_force side p) d = integral side (fun q => p q * sum 3 (fun k => nrm q k * value n q d k)).
Proof.
  unfold end_force. assert (G : forall v, dot6 n (fold_left (fun v q => plusf (jxw q) (fun c a => phi q a * (if Nat.ltb c 3 then p q * nrm q c else 0)) v) side v) d
    = dot6 n v d + integral side (fun q => p q * sum 3 (fun k => nrm q k * value n q d k))).
  { induction side as [|q side IH]; intros v; cbn [fold_left]; [rewrite integral_nil; ring|]. rewrite IH, dot_plusf, integral_cons.
    assert (E : dot6 n (fun c a => phi q a * (if Nat.ltb c 3 then p q * nrm q c else 0)) d = p q * sum 3 (fun k => nrm q k * value n q d k)).
    { unfold dot6. cbn [sum Nat.ltb Nat.leb]. unfold value.
      assert (A : forall k, sum n (fun a => phi q a * (p q * nrm q k) * d k a) = p q * nrm q k * sum n (fun a => phi q a * d k a)) by (intros k; rewrite <- sum_scal_l; apply sum_ext; intros; ring).
      rewrite !A. assert (B : forall k, sum n (fun a => phi q a * 0 * d k a) = 0) by (intros k; apply sum_0; intros; ring). rewrite !B. ring. }
    rewrite E. ring. }
  rewrite G, dot_zf. ring.
Qed.
Theorem C147_pressure : forall n t side press ar f, exists f', surface_pressure_residual t false side press ar f = Ok f' /\
  forall d, dot6 n (minusf f' f) d = - integral side (fun q => press q * ar q * sum 3 (fun k => nrm q k * value n q (in_axes t d) k)).
Proof.
  intros. eexists. split; [reflexivity|]. intros d. rewrite dot_minusf, dot_plusf, dot_global, end_dot, in_axes_eq. ring.
Qed.
Print Assumptions C147_pressure.
Theorem C147_resultant : forall n t side press ar f f' T, surface_pressure_residual t false side press ar f = Ok f' ->
  (forall q, In q side -> sum n (phi q) = 1) ->
  dot6 n (minusf f' f) (fun c _ => if Nat.ltb c 3 then T c else 0) =
  - integral side (fun q => press q * ar q * sum 3 (fun k => nrm q k * in_axes t (fun c _ => if Nat.ltb c 3 then T c else 0) k 0%nat)).
Proof.
  intros n t side press ar f f' T H HP. destruct (C147_pressure n t side press ar f) as (g & E & K). rewrite E in H. assert (g = f') by congruence. subst g.
  rewrite K. f_equal. apply integral_ext. intros q Hq. f_equal. apply sum_ext. intros k Hk. f_equal. unfold value.
  rewrite (sum_ext _ _ (fun a => phi q a * in_axes t (fun c _ => if Nat.ltb c 3 then T c else 0) k 0%nat)).
  - rewrite sum_scal_r, HP by auto. ring.
  - intros a _. destruct t; reflexivity.
Qed.
Print Assumptions C147_resultant.
Theorem C147_no_moment : forall n t side press ar f f' c a, surface_pressure_residual t false side press ar f = Ok f' -> (3 <= c < 6)%nat -> (a < n)%nat ->
  f' c a = f c a.
Proof.
  intros n t side press ar f f' c a H Hc Ha. destruct (C147_pressure n t side press ar f) as (g & E & K). rewrite E in H. assert (g = f') by congruence. subst g.
  specialize (K (unit_dof c a)). rewrite dot_unit in K by lia. unfold minusf in K.
  rewrite (integral_ext _ _ (fun _ => 0)) in K; [rewrite integral_0 in K by auto; lra|].
  intros q _. rewrite (sum_ext _ _ (fun _ => 0)); [rewrite sum_0 by auto; ring|]. intros k Hk. unfold value. rewrite sum_0; [ring|]. intros e He.
  assert (Z : in_axes t (unit_dof c a) k e = 0).
  { unfold in_axes. destruct t as [t|].
    - apply sum_0. intros l Hl. unfold unit_dof. replace (k / 3)%nat with 0%nat by (symmetry; apply Nat.div_small; lia).
      destruct (Nat.eqb_spec c (3 * 0 + l)); [lia|]. cbn [andb]. ring.
    - unfold unit_dof. destruct (Nat.eqb_spec c k); [lia|]. reflexivity. }
  rewrite Z. ring.
Qed.
Print Assumptions C147_no_moment.
Theorem C147_sensitivity : forall n t side (press ar : R -> qpt -> R) press' ar' (t0 : R) (f f0 : dofs),
  (forall q, In q side -> is_derive (fun s => press s q) t0 (press' q) /\ is_derive (fun s => ar s q) t0 (ar' q)) ->
  exists (F : R -> dofs) F', (forall s, surface_pressure_residual t false side (press s) (ar s) f = Ok (F s)) /\
  surface_pressure_residual_sensitivity t false side (press t0) (ar t0) press' ar' f0 = Ok F' /\
  forall c a, (c < 6)%nat -> (a < n)%nat -> is_derive (fun s => F s c a) t0 (F' c a - f0 c a).
Proof.
  intros n t side press ar press' ar' t0 f f0 H.
  exists (fun s => plusf (- 1) (to_global t (end_force side (fun q => press s q * ar s q))) f), (plusf (- 1) (to_global t (end_force side (fun q => press t0 q * ar' q + press' q * ar t0 q))) f0).
  split; [reflexivity|]. split; [reflexivity|]. intros c a Hc Ha.
  rewrite <- (dot_unit n (plusf _ _ f0) c a), dot_plusf, dot_global, end_dot, dot_unit by auto.
  apply (der_fun (fun s => f c a + -1 * integral side (fun q => press s q * ar s q * sum 3 (fun k => nrm q k * value n q (to_local t (unit_dof c a)) k)))).
  - intros s. rewrite <- (dot_unit n (plusf _ _ f) c a), dot_plusf, dot_global, end_dot, dot_unit by auto. ring.
  - eapply der_add; [apply der_cst; reflexivity| |].
    + eapply der_sc; [|reflexivity].
      apply (der_int side (fun s q => press s q * ar s q * sum 3 (fun k => nrm q k * value n q (to_local t (unit_dof c a)) k))). intros q Hq. destruct (H q Hq) as [H1 H2].
      eapply (der_mul t0 (fun s => press s q * ar s q)); [eapply (der_mul t0 (fun s => press s q) (fun s => ar s q)); [exact H1|exact H2|reflexivity]|apply der_cst; reflexivity|reflexivity].
    + cbv beta. replace (0 + -1 * integral side (fun q => (press' q * ar t0 q + press t0 q * ar' q) * sum 3 (fun k => nrm q k * value n q (to_local t (unit_dof c a)) k) + press t0 q * ar t0 q * 0))
        with (-1 * integral side (fun q => (press t0 q * ar' q + press' q * ar t0 q) * sum 3 (fun k => nrm q k * value n q (to_local t (unit_dof c a)) k))); [ring|].
      rewrite Rplus_0_l. f_equal. apply integral_ext. intros; ring.
Qed.
Print Assumptions C147_sensitivity.
Theorem C147_follower : forall t side press ar press' ar' f,
  surface_pressure_residual t true side press ar f = Fault AssertFailed /\ surface_pressure_residual_sensitivity t true side press ar press' ar' f = Fault AssertFailed.
Proof. intros. split; reflexivity. Qed.
Print Assumptions C147_follower.
Example C147_example : exists f', surface_pressure_residual None false [mkQ 1 (fun _ => 0) (fun a => match a with 1%nat => 1 | _ => 0 end) (fun _ _ => 0) (fun k => match k with O => 1 | _ => 0 end)]
  (fun _ => 2) (fun _ => 3) zf = Ok f' /\ f' 0%nat 1%nat = -6 /\ f' 0%nat 0%nat = 0.
Proof. eexists. split; [reflexivity|]. split; cbv [plusf to_global end_force zf fold_left jxw phi nrm Nat.ltb Nat.leb]; lra. Qed.
