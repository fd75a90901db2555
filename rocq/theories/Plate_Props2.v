From Coq Require Import Reals Lra.
From Coquelicot Require Import Coquelicot.
From Coq Require Import List Arith Bool Lia.
From Verif Require Import Base BaseLemmas Sens_Spec Sens_Proofs Sens_Proofs2 Heat_Proofs Solid_Model Solid_Spec Solid_Proofs2 Dof6_Model Dof6_Proofs Beam_Spec Beam_Proofs Beam_Proofs2 Beam_Props Beam_Props2 Plate_Model Plate_Spec Plate_Proofs Plate_Proofs2 Plate_Proofs3 Plate_Proofs4 Plate_Proofs5 Plate_Props.
Import ListNotations.
Open Scope R_scope.

(** C152: initial stresses and thermal stresses act as the forces that do work on the strains of the plate *)
Definition resultants (PA : qpt -> nat -> nat -> R) (q : qpt) (r : nat) : R := match r with
  | 0%nat => PA q 0%nat 0%nat | 1%nat => PA q 1%nat 1%nat | _ => PA q 0%nat 1%nat end.
Theorem C152_prestress_partial : forall n nl b t qs PA PB (U : R -> dofs) dU (t0 : R) req f j, pfits b n -> history6 n t0 U dU ->
  is_derive (fun s => pwork false (nl && pbends b) b n qs (resultants PA) (resultants PB) (in_axes t (U s))) t0
    (dot6 n (minusf (fst (prestress_residual n nl b t true qs PA PB (U t0) req f j)) f) dU).
Proof.
  intros n nl b t qs PA PB U dU t0 req f j FIT HU. rewrite dot_minusf, prestress_f by auto.
  eapply der_eq; [|symmetry; apply pml]. cbn [flag].
  pose proof (der_work n nl b FIT false (fun s => to_local t (U s)) (to_local t dU) t0 qs (resultants PA) (resultants PB) (history_local n t U dU t0 HU)) as K.
  rewrite andb_false_r in K.
  apply (der_fun (fun s => pwork false (nl && pbends b) b n qs (resultants PA) (resultants PB) (to_local t (U s)))); [intros; now rewrite in_axes_eq|].
  exact K.
Qed.
Print Assumptions C152_prestress_partial.
Theorem C152_prestress_jacobian : forall n nl b t on qs PA PB (U : R -> dofs) dU (t0 : R) req f j c a, pfits b n ->
  (forall q, In q qs -> msym 2 (PA q)) -> history6 n t0 U dU -> (c < 6)%nat -> (a < n)%nat ->
  is_derive (fun s => fst (prestress_residual n nl b t on qs PA PB (U s) req f j) c a) t0
    (times6 n (minusj (snd (prestress_residual n nl b t on qs PA PB (U t0) true f j)) j) dU c a).
Proof.
  intros n nl b t on qs PA PB U dU t0 req f j c a FIT HP HU Hc Ha. rewrite times_bil, bil_minusj, prestress_j by auto.
  eapply der_eq; [|symmetry; apply pml].
  apply (der_fun (fun s => dot6 n f (unit_dof c a) + flag on (integral qs (fun q => rf n nl b false (fun q => pvec (PA q)) (fun q => pvec (PB q)) q (to_local t (U s)) (to_local t (unit_dof c a)))))).
  - intros s. cbv beta. rewrite <- (dot_unit n (fst _) c a), prestress_f by auto. reflexivity.
  - eapply der_add; [apply der_cst; reflexivity| |symmetry; apply Rplus_0_l]. destruct on; cbn [flag]; [|apply der_cst; reflexivity].
    apply (der_int qs (fun s q => rf n nl b false (fun q => pvec (PA q)) (fun q => pvec (PB q)) q (to_local t (U s)) (to_local t (unit_dof c a)))). intros q Hq.
    eapply der_eq; [apply (der_rf n nl b false (fun s => to_local t (U s)) (to_local t dU)); now apply history_local|].
    unfold rjp, dvk, sym2. destruct (nl && pbends b)%bool; cbn [flag sum pvec]; [rewrite (HP q Hq 1%nat 0%nat) by lia|]; ring.
Qed.
Print Assumptions C152_prestress_jacobian.
(** the terms of the Green-Lagrange strain of the in-plane displacements are left out *)
Theorem C152_prestress_refuted : exists n b qs PA PB (U : R -> dofs) dU t0 e, pfits b n /\ (forall q, In q qs -> msym 2 (PA q)) /\ history6 n t0 U dU /\
  is_derive (fun s => pwork true (pbends b) b n qs (resultants PA) (resultants PB) (in_axes None (U s))) t0 e /\
  forall req f j, dot6 n (minusf (fst (prestress_residual n true b None true qs PA PB (U t0) req f j)) f) dU <> e.
Proof.
  exists 2%nat, MINDLIN, [p0], (fun _ i l => if Nat.eqb i l then 1 else 0), (fun _ _ _ => 0), (ramp 0 1), (unit_dof 0 1), 1, 2.
  split; [exact I|]. split; [intros; apply diag_sym|]. split; [apply ramp_history|]. split.
  - eapply der_eq; [apply (der_work 2 true MINDLIN I true (ramp 0 1) (unit_dof 0 1)); apply ramp_history|].
    unfold rf, resultants. pl. cbn. lra.
  - intros req f j. rewrite dot_minusf, prestress_f by exact I. cbn [to_local flag]. unfold rf, pvec. pl. lra.
Qed.
Print Assumptions C152_prestress_refuted.
Theorem C152_thermal : forall n nl b t sc qs EA EB dt (U : R -> dofs) dU (t0 : R) req f j, pfits b n -> history6 n t0 U dU ->
  is_derive (fun s => - pwork nl (nl && pbends b) b n qs (fun q r => EA q r * dt q) (fun q r => EB q r * dt q) (in_axes t (U s))) t0
    (dot6 n (minusf (fst (thermal_residual n nl b t sc qs EA EB dt (U t0) req f j)) f) dU).
Proof.
  intros n nl b t sc qs EA EB dt U dU t0 req f j FIT HU. rewrite dot_minusf, thermal_f by auto.
  pose proof (der_work n nl b FIT true (fun s => to_local t (U s)) (to_local t dU) t0 qs (fun q r => EA q r * dt q) (fun q r => EB q r * dt q) (history_local n t U dU t0 HU)) as K.
  rewrite andb_true_r in K.
  apply (der_fun (fun s => -1 * pwork nl (nl && pbends b) b n qs (fun q r => EA q r * dt q) (fun q r => EB q r * dt q) (to_local t (U s)))); [intros; rewrite in_axes_eq; ring|].
  eapply der_sc; [exact K|]. cbv beta. unfold minus; lra.
Qed.
Print Assumptions C152_thermal.
Theorem C152_thermal_jacobian : forall n nl b t sc qs EA EB dt (U : R -> dofs) dU (t0 : R) req f j c a, pfits b n ->
  sc = None \/ sc = Some 1 -> history6 n t0 U dU -> (c < 6)%nat -> (a < n)%nat ->
  is_derive (fun s => fst (thermal_residual n nl b t sc qs EA EB dt (U s) req f j) c a) t0
    (times6 n (minusj (snd (thermal_residual n nl b t sc qs EA EB dt (U t0) true f j)) j) dU c a).
Proof.
  intros n nl b t sc qs EA EB dt U dU t0 req f j c a FIT HC HU Hc Ha. rewrite times_bil, bil_minusj, thermal_j by auto.
  apply (der_fun (fun s => dot6 n f (unit_dof c a) + -1 * integral qs (fun q => rf n nl b true (fun q r => EA q r * dt q) (fun q r => EB q r * dt q) q (to_local t (U s)) (to_local t (unit_dof c a))))).
  - intros s. cbv beta. rewrite <- (dot_unit n (fst _) c a), thermal_f by auto. ring.
  - eapply der_add; [apply der_cst; reflexivity| |].
    + eapply der_sc; [|reflexivity].
      apply (der_int qs (fun s q => rf n nl b true (fun q r => EA q r * dt q) (fun q r => EB q r * dt q) q (to_local t (U s)) (to_local t (unit_dof c a)))). intros q _.
      apply (der_rf n nl b true (fun s => to_local t (U s)) (to_local t dU)). now apply history_local.
    + cbv beta. unfold rjt. cbn [flag]. destruct HC as [-> | ->]; ring.
Qed.
Print Assumptions C152_thermal_jacobian.
Theorem C152_thermal_scaling_refuted : exists n b qs EA EB dt (U : R -> dofs) dU t0 c a, pfits b n /\ history6 n t0 U dU /\ (c < 6)%nat /\ (a < n)%nat /\
  forall req, ~ is_derive (fun s => fst (thermal_residual n true b None (Some (1/2)) qs EA EB dt (U s) req zf zj) c a) t0
    (times6 n (minusj (snd (thermal_residual n true b None (Some (1/2)) qs EA EB dt (U t0) true zf zj)) zj) dU c a).
Proof.
  exists 2%nat, MINDLIN, [p0], (fun _ _ => 1), (fun _ _ => 0), (fun _ => 1), (ramp 2 1), (unit_dof 2 1), 0, 2%nat, 1%nat.
  split; [exact I|]. split; [apply ramp_history|]. split; [lia|]. split; [lia|]. intros req H.
  pose proof (C152_thermal_jacobian 2 true MINDLIN None None [p0] (fun _ _ => 1) (fun _ _ => 0) (fun _ => 1) (ramp 2 1) (unit_dof 2 1) 0 req zf zj 2 1 I (or_introl eq_refl) (ramp_history _ _ _ _) ltac:(lia) ltac:(lia)) as K.
  assert (E := eq_trans (eq_sym (is_derive_unique _ _ _ H)) (is_derive_unique _ _ _ K)). revert E. clear K H.
  rewrite !times_bil, !bil_minusj, !thermal_j by (try exact I; lia). rewrite !bil_zj. cbn [to_local]. unfold rjt. pl. lra.
Qed.
Print Assumptions C152_thermal_scaling_refuted.
Lemma pvec_der (P : R -> nat -> nat -> R) P' (t0 : R) : mat_der 2 P P' t0 -> vector_derivative 3 (fun s => pvec (P s)) (pvec P') t0.
Proof. intros H r Hr. destruct r as [|[|r]]; cbn [pvec]; apply H; lia. Qed.
Theorem C152_prestress_sensitivity : forall n nl b t on qs (PA PB : R -> qpt -> nat -> nat -> R) PA' PB' U (t0 : R) req req' f j f0 j0 c a, pfits b n ->
  (forall q, In q qs -> mat_der 2 (fun s => PA s q) (PA' q) t0 /\ mat_der 2 (fun s => PB s q) (PB' q) t0) ->
  (c < 6)%nat -> (a < n)%nat ->
  is_derive (fun s => fst (prestress_residual n nl b t on qs (PA s) (PB s) U req f j) c a) t0
    (fst (prestress_residual n nl b t on qs PA' PB' U req' f0 j0) c a - f0 c a) /\
  forall d e, (d < 6)%nat -> (e < n)%nat ->
  is_derive (fun s => snd (prestress_residual n nl b t on qs (PA s) (PB s) U true f j) c a d e) t0
    (snd (prestress_residual n nl b t on qs PA' PB' U true f0 j0) c a d e - j0 c a d e).
Proof.
  intros n nl b t on qs PA PB PA' PB' U t0 req req' f j f0 j0 c a FIT HD Hc Ha. split.
  - rewrite <- (dot_unit n (fst _) c a), prestress_f, dot_unit by auto. eapply der_eq; [|symmetry; apply pml].
    apply (der_fun (fun s => f c a + flag on (integral qs (fun q => rf n nl b false (fun q => pvec (PA s q)) (fun q => pvec (PB s q)) q (to_local t U) (to_local t (unit_dof c a)))))).
    { intros s. cbv beta. rewrite <- (dot_unit n (fst _) c a), prestress_f, dot_unit by auto. reflexivity. }
    eapply der_add; [apply der_cst; reflexivity| |symmetry; apply Rplus_0_l]. destruct on; cbn [flag]; [|apply der_cst; reflexivity].
    apply (der_int qs (fun s q => rf n nl b false (fun q => pvec (PA s q)) (fun q => pvec (PB s q)) q (to_local t U) (to_local t (unit_dof c a)))). intros q Hq.
    destruct (HD q Hq) as [H1 H2]. apply (der_rf_v n nl b false (fun s q => pvec (PA s q)) (fun s q => pvec (PB s q)) (fun q => pvec (PA' q)) (fun q => pvec (PB' q))); [exact (pvec_der _ _ _ H1)|exact (pvec_der _ _ _ H2)].
  - intros d e Hd He. rewrite (entry n (snd _) c a d e), prestress_j, <- entry by auto. eapply der_eq; [|symmetry; apply pml].
    apply (der_fun (fun s => j c a d e + flag on (integral qs (fun q => rjp n nl b (PA s) q (to_local t (unit_dof c a)) (to_local t (unit_dof d e)))))).
    { intros s. cbv beta. rewrite (entry n (snd _) c a d e), prestress_j, <- entry by auto. reflexivity. }
    eapply der_add; [apply der_cst; reflexivity| |symmetry; apply Rplus_0_l]. destruct on; cbn [flag]; [|apply der_cst; reflexivity].
    apply (der_int qs (fun s q => rjp n nl b (PA s) q (to_local t (unit_dof c a)) (to_local t (unit_dof d e)))). intros q Hq.
    destruct (HD q Hq) as [H1 H2]. now apply der_rjp_v.
Qed.
Print Assumptions C152_prestress_sensitivity.
Lemma prod_vec3 m (E : R -> nat -> R) E' (dt : R -> R) dt' (t0 : R) : vector_derivative m E E' t0 -> is_derive dt t0 dt' ->
  vector_derivative m (fun s r => E s r * dt s) (fun r => E t0 r * dt' + E' r * dt t0) t0.
Proof. intros H H' r Hr. eapply (der_mul t0 (fun s => E s r) dt); [now apply H|exact H'|ring]. Qed.
Theorem C152_thermal_sensitivity : forall n nl b t sc qs (EA EB : R -> qpt -> nat -> R) EA' EB' (dt : R -> qpt -> R) dt' U (t0 : R) req req' f j f0 j0 c a, pfits b n ->
  (forall q, In q qs -> vector_derivative 3 (fun s => EA s q) (EA' q) t0 /\ vector_derivative 3 (fun s => EB s q) (EB' q) t0 /\ is_derive (fun s => dt s q) t0 (dt' q)) ->
  (c < 6)%nat -> (a < n)%nat ->
  is_derive (fun s => fst (thermal_residual n nl b t sc qs (EA s) (EB s) (dt s) U req f j) c a) t0
    (fst (thermal_residual_sensitivity n nl b t qs (EA t0) (EB t0) EA' EB' (dt t0) dt' U req' f0 j0) c a - f0 c a) /\
  forall d e, (d < 6)%nat -> (e < n)%nat -> sc = None \/ sc = Some 1 ->
  is_derive (fun s => snd (thermal_residual n nl b t sc qs (EA s) (EB s) (dt s) U true f j) c a d e) t0
    (snd (thermal_residual_sensitivity n nl b t qs (EA t0) (EB t0) EA' EB' (dt t0) dt' U true f0 j0) c a d e - j0 c a d e).
Proof.
  intros n nl b t sc qs EA EB EA' EB' dt dt' U t0 req req' f j f0 j0 c a FIT HD Hc Ha. split.
  - rewrite <- (dot_unit n (fst _) c a), thermal_sens_f, dot_unit by auto.
    apply (der_fun (fun s => f c a + -1 * integral qs (fun q => rf n nl b true (fun q r => EA s q r * dt s q) (fun q r => EB s q r * dt s q) q (to_local t U) (to_local t (unit_dof c a))))).
    { intros s. cbv beta. rewrite <- (dot_unit n (fst _) c a), thermal_f, dot_unit by auto. ring. }
    eapply der_add; [apply der_cst; reflexivity| |].
    + eapply der_sc; [|reflexivity].
      apply (der_int qs (fun s q => rf n nl b true (fun q r => EA s q r * dt s q) (fun q r => EB s q r * dt s q) q (to_local t U) (to_local t (unit_dof c a)))). intros q Hq.
      destruct (HD q Hq) as (H1 & H2 & H3).
      apply (der_rf_v n nl b true (fun s q r => EA s q r * dt s q) (fun s q r => EB s q r * dt s q) (fun q r => EA t0 q r * dt' q + EA' q r * dt t0 q) (fun q r => EB t0 q r * dt' q + EB' q r * dt t0 q));
      [exact (prod_vec3 3 (fun s => EA s q) (EA' q) (fun s => dt s q) (dt' q) t0 H1 H3)|exact (prod_vec3 3 (fun s => EB s q) (EB' q) (fun s => dt s q) (dt' q) t0 H2 H3)].
    + cbv beta. ring.
  - intros d e Hd He HC. rewrite (entry n (snd _) c a d e), thermal_sens_j, <- entry by auto.
    apply (der_fun (fun s => j c a d e + -1 * integral qs (fun q => rjt n nl b (fun q r => EA s q r * dt s q) q (to_local t (unit_dof c a)) (to_local t (unit_dof d e))))).
    { intros s. cbv beta. rewrite (entry n (snd _) c a d e), thermal_j, <- entry by auto. destruct HC as [-> | ->]; ring. }
    eapply der_add; [apply der_cst; reflexivity| |].
    + eapply der_sc; [|reflexivity].
      apply (der_int qs (fun s q => rjt n nl b (fun q r => EA s q r * dt s q) q (to_local t (unit_dof c a)) (to_local t (unit_dof d e)))). intros q Hq.
      destruct (HD q Hq) as (H1 & H2 & H3).
      apply (der_rjt_v n nl b (fun s q r => EA s q r * dt s q) (fun q r => EA t0 q r * dt' q + EA' q r * dt t0 q)).
      exact (prod_vec3 3 (fun s => EA s q) (EA' q) (fun s => dt s q) (dt' q) t0 H1 H3).
    + cbv beta. ring.
Qed.
Print Assumptions C152_thermal_sensitivity.
Example C152_example : msym 2 (fun i l => if Nat.eqb i l then 1 else 0) /\
  dot6 2 (minusf (fst (prestress_residual 2 true MINDLIN None true [p0] (fun _ i l => if Nat.eqb i l then 3 else 0) (fun _ _ _ => 0) (ramp 2 1 2) true zf zj)) zf) (unit_dof 2 1) = 6 /\
  dot6 2 (minusf (fst (thermal_residual 2 true MINDLIN None None [p0] (fun _ _ => 1) (fun _ _ => 0) (fun _ => 2) (ramp 0 1 1) true zf zj)) zf) (unit_dof 0 1) = -4.
Proof.
  split; [apply diag_sym|]. split.
  - rewrite dot_minusf, prestress_f by exact I. cbn [to_local flag]. unfold rf, pvec. pl. rewrite dot_zf. cbn. lra.
  - rewrite dot_minusf, thermal_f by exact I. cbn [to_local flag]. unfold rf. pl. rewrite dot_zf. cbn. lra.
Qed.

(** C153: kinematics of the bending operators *)
Lemma mid_bent W P u i j k : bent W P u -> (i < 3)%nat -> (j < 3)%nat -> (k < 2)%nat ->
  0 < (P j 0%nat - P i 0%nat) ^ 2 + (P j 1%nat - P i 1%nat) ^ 2 ->
  mid_beta P i j u k = - slope W k ((P i 0%nat + P j 0%nat) / 2) ((P i 1%nat + P j 1%nat) / 2).
Proof.
  intros HB Hi Hj Hk Hp. destruct (HB i Hi) as [Wi Bi]. destruct (HB j Hj) as [Wj Bj].
  unfold mid_beta. rewrite !Bi, !Bj, Wi, Wj by lia. unfold deflection, slope.
  set (x := P i 0%nat) in *. set (y := P i 1%nat) in *. set (x' := P j 0%nat) in *. set (y' := P j 1%nat) in *.
  pose proof (sqrt_lt_R0 _ Hp) as L. pose proof (sqrt_sqrt ((x' - x) ^ 2 + (y' - y) ^ 2) ltac:(lra)) as S2.
  set (l := sqrt ((x' - x) ^ 2 + (y' - y) ^ 2)) in *.
  assert (HX : x = x' - (x' - x)) by ring. set (ex := x' - x) in *. set (ey := y' - y) in *.
  assert (Hx : x' = x + ex) by (unfold ex; ring). assert (Hy : y' = y + ey) by (unfold ey; ring). clearbody ex ey l x y x' y'. subst x' y'. clear HX.
  assert (I2 : ex * ex / (l * l) = 1 - ey * ey / (l * l)) by (replace (1 : R) with ((l * l) / (l * l)) by (field; lra); rewrite S2; field; nra).
  assert (E : forall a b c : R, (ex / l) * (ex / l) + (ey / l) * (ey / l) = 1 -> True) by auto.
  assert (U : (ex / l) * (ex / l) = 1 - (ey / l) * (ey / l)).
  { transitivity (ex * ex / (l * l)); [field; lra|]. rewrite I2. field. lra. }
  set (c := ex / l) in *. set (s := ey / l) in *.
  replace (- ex / l) with (- c) by (unfold c; field; lra).
  assert (Ex : ex = c * l) by (unfold c; field; lra). assert (Ey : ey = s * l) by (unfold s; field; lra).
  clearbody c s. rewrite Ex, Ey.
  destruct k as [|[|k]]; [| |lia].
  - match goal with |- ?a = ?b => cut (a - b = 0); [lra|] end.
    transitivity ((c * c + s * s - 1) * ( - (wx W + wxx W * (x + c * l / 2) + wxy W * (y + s * l / 2)) )).
    + field. lra.
    + rewrite U. ring.
  - match goal with |- ?a = ?b => cut (a - b = 0); [lra|] end.
    transitivity ((c * c + s * s - 1) * ( - (wy W + wxy W * (x + c * l / 2) + wyy W * (y + s * l / 2)) )).
    + field. lra.
    + rewrite U. ring.
Qed.
Lemma beta_bent W P d6 q u k i : ccw P -> complete6 P (d6 q) -> bent W P u -> (k < 2)%nat -> (i < 2)%nat ->
  beta_grad (DKT P d6) 3 q u k i = - match k, i with O, O => wxx W | O, _ => wxy W | _, O => wxy W | _, _ => wyy W end.
Proof.
  intros HP HC HB Hk Hi. destruct (edge_pos P HP) as (E1 & E2 & E3). cbn [beta_grad].
  transitivity (sum 6 (fun m => d6 q m i * - slope W k (six_nodes P m 0%nat) (six_nodes P m 1%nat))).
  { apply sum_ext. intros m Hm. f_equal.
    destruct m as [|[|[|[|[|[|m]]]]]]; [| | | | | |lia]; cbn [dkt_beta six_nodes].
    - apply (HB 0%nat); lia. - apply (HB 1%nat); lia. - apply (HB 2%nat); lia.
    - now rewrite (mid_bent W) by (auto; lia).
    - now rewrite (mid_bent W) by (auto; lia).
    - now rewrite (mid_bent W) by (auto; lia). }
  destruct (HC i Hi) as [C0 C1].
  set (z0 := match k with O => wx W | _ => wy W end). set (z1 := match k with O => wxx W | _ => wxy W end). set (z2 := match k with O => wxy W | _ => wyy W end).
  transitivity (- (z0 * sum 6 (fun m => d6 q m i) + z1 * sum 6 (fun m => d6 q m i * six_nodes P m 0%nat) + z2 * sum 6 (fun m => d6 q m i * six_nodes P m 1%nat))).
  { unfold z0, z1, z2, slope. destruct k; cbn [sum]; ring. }
  rewrite C0, !C1 by lia. unfold z1, z2. destruct k as [|[|k]]; [| |lia]; (destruct i as [|[|i]]; [| |lia]); cbn [Nat.eqb]; ring.
Qed.
Theorem C153_constant_curvature_partial : forall P d6 q z W u r, ccw P -> complete6 P (d6 q) -> bent W P u -> (r < 3)%nat ->
  vm 3 (pbend_z (DKT P d6) q z) u r = bending_strain W z r.
Proof.
  intros P d6 q z W u r HP HC HB Hr. rewrite (vm_bend_z 3 (DKT P d6) (conj eq_refl HP)).
  unfold curvature. destruct r as [|[|[|r]]]; [| | |lia]; cbn [Nat.ltb Nat.leb bending_strain]; rewrite !(beta_bent W) by (auto; lia); ring.
Qed.
Print Assumptions C153_constant_curvature_partial.
Lemma vn (x : nat -> R) k : 0 <= k -> x 0%nat * x 0%nat + x 1%nat * x 1%nat + x 2%nat * x 2%nat = k * k -> vnorm x = k.
Proof. intros Hk E. unfold vnorm. rewrite E. now apply sqrt_square. Qed.
(** middle of a triangle with the corners P: gradients of its six functions there from those of the coordinates *)
Definition mid6 (g : nat -> nat -> R) (m i : nat) : R := match m with
  | 3%nat => - (4/3) * g 2%nat i | 4%nat => - (4/3) * g 0%nat i | 5%nat => - (4/3) * g 1%nat i | _ => 1/3 * g m i end.
Definition Pcw (a k : nat) : R := match a, k with 1%nat, 1%nat => 4 | 2%nat, 0%nat => 3 | _, _ => 0 end.
Definition gcw (a i : nat) : R := match a, i with 0%nat, 0%nat => -1/3 | 0%nat, _ => -1/4 | 1%nat, 1%nat => 1/4 | 2%nat, 0%nat => 1/3 | _, _ => 0 end.
Definition tilt : dofs := fun c a => match c, a with 2%nat, 2%nat => 3 | 4%nat, _ => -1 | _, _ => 0 end.
(** a triangle in the xy plane whose nodes are numbered clockwise: a rigid rotation strains it *)
Theorem C153_clockwise_refuted : exists P d6 q W u r, (forall a, P a 2%nat = 0) /\ complete6 P (d6 q) /\ bent W P u /\
  (P 1%nat 0%nat - P 0%nat 0%nat) * (P 2%nat 1%nat - P 0%nat 1%nat) - (P 1%nat 1%nat - P 0%nat 1%nat) * (P 2%nat 0%nat - P 0%nat 0%nat) <> 0 /\
  (forall k, bending_strain W 1 k = 0) /\ (r < 3)%nat /\ vm 3 (pbend_z (DKT P d6) q 1) u r <> 0.
Proof.
  exists Pcw, (fun _ => mid6 gcw), p0, (mkW 0 1 0 0 0 0), tilt, 0%nat.
  split; [intros [|[|[|a]]]; reflexivity|]. split; [|split; [|split; [|split; [|split; [lia|]]]]].
  - intros i Hi. destruct i as [|[|i]]; [| |lia]; (split; [cbn; lra|intros k Hk; destruct k as [|[|k]]; [| |lia]; cbn; lra]).
  - intros a Ha. destruct a as [|[|[|a]]]; [| | |lia]; (split; [unfold deflection, tilt; cbn; lra|intros k Hk; destruct k as [|[|k]]; [| |lia]; unfold node_beta, slope, tilt; cbn; lra]).
  - cbn. lra.
  - intros [|[|k]]; cbn; lra.
  - assert (N3 : vnorm (vcross (vsub (Pcw 1) (Pcw 0)) (vsub (Pcw 2) (Pcw 0))) = 12).
    { apply vn; [lra|]. unfold vcross, vsub, Pcw. lra. }
    assert (L6 : edge_length Pcw 0 1 = 4) by (apply vn; [lra|unfold vsub, Pcw; lra]).
    assert (L4 : edge_length Pcw 1 2 = 5) by (apply vn; [lra|unfold vsub, Pcw; lra]).
    assert (L5 : edge_length Pcw 2 0 = 3) by (apply vn; [lra|unfold vsub, Pcw; lra]).
    assert (E6 : edge_normal Pcw 0 1 = (0, -1)).
    { unfold edge_normal. rewrite N3. rewrite (vn _ 4); [|lra|unfold vcross, vdiv, vsub, Pcw; lra]. f_equal; unfold vcross, vdiv, vsub, Pcw; lra. }
    assert (E4 : edge_normal Pcw 1 2 = (3/5, 4/5)).
    { unfold edge_normal. rewrite N3. rewrite (vn _ 5); [|lra|unfold vcross, vdiv, vsub, Pcw; lra]. f_equal; unfold vcross, vdiv, vsub, Pcw; lra. }
    assert (E5 : edge_normal Pcw 2 0 = (-1, 0)).
    { unfold edge_normal. rewrite N3. rewrite (vn _ 3); [|lra|unfold vcross, vdiv, vsub, Pcw; lra]. f_equal; unfold vcross, vdiv, vsub, Pcw; lra. }
    unfold pbend_z, dkt_shape. rewrite L4, L5, L6, E4, E5, E6. unfold vm.
    cbn [sum]. unfold oset, zop, pscal, part, tilt, mid6, gcw. cbn [Nat.eqb Nat.ltb Nat.leb andb Nat.add]. intros E. lra.
Qed.
Print Assumptions C153_clockwise_refuted.
(** a triangle in the plane of the x and z axes of the mesh: the global gradients of its functions have no y component *)
Definition Pinc (a k : nat) : R := match k with 0%nat => P3 a 0%nat | 2%nat => P3 a 1%nat | _ => 0 end.
Definition g3 (a i : nat) : R := match a, i with 0%nat, 0%nat => -1/3 | 0%nat, _ => -1/4 | 1%nat, 0%nat => 1/3 | 2%nat, 1%nat => 1/4 | _, _ => 0 end.
Theorem C153_inclined_refuted : exists X P local d6 q W u,
  (forall a, P a 0%nat = X a 0%nat /\ P a 1%nat = 0 /\ P a 2%nat = X a 1%nat) /\
  (forall m, d6 q m 0%nat = local m 0%nat /\ d6 q m 1%nat = 0 /\ d6 q m 2%nat = local m 1%nat) /\
  ccw X /\ complete6 X local /\ bent W X u /\
  vm 3 (pbend_z (DKT P d6) q 1) u 1 <> bending_strain W 1 1.
Proof.
  exists P3, Pinc, (mid6 g3), (fun _ m i => match i with 0%nat => mid6 g3 m 0%nat | 2%nat => mid6 g3 m 1%nat | _ => 0 end), p0, (mkW 0 0 0 0 0 1),
    (fun c a => match c, a with 2%nat, 2%nat => 8 | 3%nat, 2%nat => 4 | _, _ => 0 end).
  split; [intros a; repeat split; unfold Pinc, P3; destruct a as [|[|[|a]]]; reflexivity|].
  split; [intros m; repeat split|]. split; [unfold ccw, P3; repeat split; lra|].
  split; [|split].
  - intros i Hi. destruct i as [|[|i]]; [| |lia]; (split; [cbn; lra|intros k Hk; destruct k as [|[|k]]; [| |lia]; cbn; lra]).
  - intros a Ha. destruct a as [|[|[|a]]]; [| | |lia]; (split; [unfold deflection, P3; cbn; lra|intros k Hk; destruct k as [|[|k]]; [| |lia]; unfold node_beta, slope, P3; cbn; lra]).
  - unfold pbend_z, dkt_shape. destruct (edge_normal Pinc 1 2), (edge_normal Pinc 2 0), (edge_normal Pinc 0 1).
    unfold vm. cbn [sum]. unfold oset, zop, pscal, part. cbn [Nat.eqb Nat.ltb Nat.leb andb Nat.add bending_strain wyy]. unfold Rdiv. intros E. ring_simplify in E. lra.
Qed.
Print Assumptions C153_inclined_refuted.
Theorem C153_fibre : forall n b q z u r, pfits b n -> (r < 3)%nat -> vm n (pbend_z b q z) u r = z * curvature b n q u r.
Proof. intros n b q z u r FIT Hr. rewrite vm_bend_z by auto. now rewrite (proj2 (Nat.ltb_lt r 3)) by auto. Qed.
Print Assumptions C153_fibre.
Theorem C153_rigid : forall n nl b t X T Th qs sq S G U req f j, pfits b n ->
  (forall q, In q qs \/ In q sq -> complete2 n X q /\ triangle_of b X q) -> (nl = true -> forall k, (k < 3)%nat -> Th k = 0) ->
  (forall c a, (c < 6)%nat -> (a < n)%nat -> in_axes t U c a = plate_motion X T Th c a) ->
  forall c a, (c < 6)%nat -> (a < n)%nat -> fst (internal_residual n nl b t qs sq S G U req f j) c a = f c a.
Proof.
  intros n nl b t X T Th qs sq S G U req f j FIT HC HV HU c a Hc Ha. rewrite pcomp_f by auto.
  rewrite in_axes_eq in HU. set (u := to_local t U) in *.
  assert (LIN : forall q i x0 x1 x2, In q qs \/ In q sq -> (i < 2)%nat -> sum n (fun e => dphi q e i * (x0 + x1 * X e 0%nat + x2 * X e 1%nat)) = match i with O => x1 | _ => x2 end).
  { intros q i x0 x1 x2 Hq Hi. destruct (HC q Hq) as [(_ & CI) _]. destruct (CI i Hi) as [C0 C1].
    transitivity (x0 * sum n (fun e => dphi q e i) + x1 * sum n (fun e => dphi q e i * X e 0%nat) + x2 * sum n (fun e => dphi q e i * X e 1%nat)).
    { rewrite <- !sum_scal_l, <- !sum_plus. apply sum_ext. intros; ring. }
    rewrite C0, !C1 by lia. destruct i as [|[|i]]; [| |lia]; cbn [Nat.eqb]; ring. }
  assert (GR : forall q d i, In q qs \/ In q sq -> (d < 3)%nat -> (i < 2)%nat -> grad n q u d i = match d, i with
    | 0%nat, 0%nat => 0 | 0%nat, _ => - Th 2%nat | 1%nat, 0%nat => Th 2%nat | 1%nat, _ => 0 | _, 0%nat => - Th 1%nat | _, _ => Th 0%nat end).
  { intros q d i Hq Hd Hi. unfold grad. destruct d as [|[|[|d]]]; [| | |lia].
    - rewrite (sum_ext _ _ (fun e => dphi q e i * (T 0%nat + 0 * X e 0%nat + - Th 2%nat * X e 1%nat))); [rewrite LIN by auto; destruct i as [|[|i]]; [| |lia]; ring|]. intros e He. rewrite HU by (auto; lia). cbn [plate_motion]. ring.
    - rewrite (sum_ext _ _ (fun e => dphi q e i * (T 1%nat + Th 2%nat * X e 0%nat + 0 * X e 1%nat))); [rewrite LIN by auto; destruct i as [|[|i]]; [| |lia]; ring|]. intros e He. rewrite HU by (auto; lia). cbn [plate_motion]. ring.
    - rewrite (sum_ext _ _ (fun e => dphi q e i * (T 2%nat + - Th 1%nat * X e 0%nat + Th 0%nat * X e 1%nat))); [rewrite LIN by auto; destruct i as [|[|i]]; [| |lia]; ring|]. intros e He. rewrite HU by (auto; lia). cbn [plate_motion]. ring. }
  assert (NB : forall e k, (e < n)%nat -> node_beta u e k = match k with O => Th 1%nat | _ => - Th 0%nat end).
  { intros e k He. unfold node_beta. destruct k; rewrite HU by (auto; lia); reflexivity. }
  assert (KA : forall q r, In q qs \/ In q sq -> curvature b n q u r = 0).
  { intros q r Hq. assert (BG : forall k i, (k < 2)%nat -> (i < 2)%nat -> beta_grad b n q u k i = 0).
    { intros k i Hk Hi. destruct (HC q Hq) as [(_ & CI) TR]. destruct (CI i Hi) as [C0 _].
      destruct b as [| |P d6]; cbn [beta_grad]; [reflexivity| |].
      - rewrite (sum_ext _ _ (fun e => dphi q e i * (match k with O => Th 1%nat | _ => - Th 0%nat end))) by (intros; now rewrite NB). rewrite sum_scal_r, C0. ring.
      - destruct FIT as [-> CW]. destruct TR as [C6 XP].
        pose (W := mkW (T 2%nat + Th 0%nat * (X 0%nat 1%nat - P 0%nat 1%nat) - Th 1%nat * (X 0%nat 0%nat - P 0%nat 0%nat)) (- Th 1%nat) (Th 0%nat) 0 0 0).
        assert (HB : bent W P u).
        { intros e He. split.
          - rewrite HU by (auto; lia). cbn [plate_motion]. unfold deflection, W. cbn [w0 wx wy wxx wxy wyy].
            pose proof (XP e 0%nat He ltac:(lia)). pose proof (XP e 1%nat He ltac:(lia)).
            replace (X e 0%nat) with (P e 0%nat - P 0%nat 0%nat + X 0%nat 0%nat) by lra. replace (X e 1%nat) with (P e 1%nat - P 0%nat 1%nat + X 0%nat 1%nat) by lra. ring.
          - intros l Hl. rewrite NB by auto. unfold slope, W. cbn [wx wy wxx wxy wyy]. destruct l; ring. }
        pose proof (beta_bent W P d6 q u k i CW C6 HB Hk Hi) as E. cbn [beta_grad] in E. rewrite E. unfold W. cbn [wxx wxy wyy].
        destruct k, i; ring. }
    unfold curvature. destruct r as [|[|r]]; rewrite ?BG by lia; ring. }
  assert (GA : forall q i, In q qs \/ In q sq -> (i < 2)%nat -> pgamma n q u i = 0).
  { intros q i Hq Hi. unfold pgamma. rewrite GR by (auto; lia). destruct (HC q Hq) as [(C0 & _) _].
    rewrite (sum_ext _ _ (fun e => phi q e * (match i with O => Th 1%nat | _ => - Th 0%nat end))) by (intros; now rewrite NB). rewrite sum_scal_r, C0.
    destruct i as [|[|i]]; [| |lia]; ring. }
  assert (EP : forall q r, In q qs \/ In q sq -> eps n nl b q u r = 0).
  { intros q r Hq. unfold eps, membrane. destruct nl; cbn [andb flag].
    - assert (Z0 := HV eq_refl 0%nat ltac:(lia)). assert (Z1 := HV eq_refl 1%nat ltac:(lia)). assert (Z2 := HV eq_refl 2%nat ltac:(lia)).
      destruct r as [|[|r]]; rewrite !GR by (auto; lia); rewrite ?Z0, ?Z1, ?Z2; destruct (pbends b); cbn [flag]; ring.
    - destruct r as [|[|r]]; rewrite !GR by (auto; lia); ring. }
  match goal with |- _ + ?x = _ => cut (x = 0); [intros ->; ring|] end. unfold WF.
  rewrite (integral_0 qs).
  - destruct (pshears b); [|ring]. rewrite integral_0; [ring|]. intros q Hq. unfold sf. cbn [sum]. rewrite !(GA q) by (auto; lia). ring.
  - intros q Hq. unfold wf, Nf. cbn [sum]. rewrite !(EP q), !(KA q) by auto. ring.
Qed.
Print Assumptions C153_rigid.
Example C153_example : ccw P3 /\ complete6 P3 (mid6 g3) /\ complete2 3 P3 (mkQ 1 (fun _ => 0) (fun _ => 1/3) g3 (fun _ => 0)) /\
  triangle_of (DKT P3 (fun _ => mid6 g3)) P3 p0 /\ bent (mkW 0 0 0 0 0 1) P3 (fun c a => match c, a with 2%nat, 2%nat => 8 | 3%nat, 2%nat => 4 | _, _ => 0 end).
Proof.
  assert (C : complete6 P3 (mid6 g3)).
  { intros i Hi. destruct i as [|[|i]]; [| |lia]; (split; [cbn; lra|intros k Hk; destruct k as [|[|k]]; [| |lia]; cbn; lra]). }
  split; [unfold ccw, P3; repeat split; lra|]. split; [exact C|]. split; [|split].
  - split; [cbn; lra|]. intros i Hi. destruct i as [|[|i]]; [| |lia]; (split; [cbn; lra|intros k Hk; destruct k as [|[|k]]; [| |lia]; cbn; lra]).
  - split; [exact C|]. intros a k _ _. reflexivity.
  - intros a Ha. destruct a as [|[|[|a]]]; [| | |lia]; (split; [unfold deflection, P3; cbn; lra|intros k Hk; destruct k as [|[|k]]; [| |lia]; unfold node_beta, slope, P3; cbn; lra]).
Qed.
