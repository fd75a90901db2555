From Coq Require Import Reals Lra.
From Coquelicot Require Import Coquelicot.
From Coq Require Import List Arith Bool Lia.
From Verif Require Import Base BaseLemmas RBool Sens_Spec Sens_Proofs Sens_Proofs2 Heat_Proofs Solid_Model Solid_Spec Solid_Proofs2 Dof6_Model Dof6_Proofs Beam_Model Beam_Spec Beam_Proofs Beam_Proofs2.
Import ListNotations.
Open Scope R_scope.

Lemma in_axes_eq t u : in_axes t u = to_local t u.
Proof. destruct t; reflexivity. Qed.
Lemma pml (a b : R) : a + b - a = b.
Proof. ring. Qed.
Lemma regular_A (S : qpt -> sect) qs : (forall q, In q qs -> regular (S q)) -> forall q, In q qs -> sA (S q) 0%nat 1%nat = 0 /\ sA (S q) 1%nat 0%nat = 0.
Proof. intros H q Hq. destruct (H q Hq) as (? & ? & ?). auto. Qed.

Lemma comp_f n vk b t qs sq S G U req f j c a : fits b n -> (c < 6)%nat -> (a < n)%nat ->
  fst (internal_residual n vk b t qs sq S G U req f j) c a = dot6 n f (unit_dof c a) + WF n vk b qs sq S G (to_local t U) (to_local t (unit_dof c a)).
Proof. intros. rewrite <- (dot_unit n (fst _) c a), residual_f by auto. reflexivity. Qed.

(** C140: the internal force of a beam is the derivative of its stored energy *)
Theorem C140_energy : forall n vk b t qs sq S G (U : R -> dofs) dU (t0 : R) req f j, fits b n ->
  (forall q, In q qs -> regular (S q)) -> (shears b = true -> forall q, In q sq -> equal_shear (G q)) -> history6 n t0 U dU ->
  is_derive (fun s => beam_energy vk b n qs sq S G (in_axes t (U s))) t0
    (dot6 n (minusf (fst (internal_residual n vk b t qs sq S G (U t0) req f j)) f) dU).
Proof.
  intros n vk b t qs sq S G U dU t0 req f j FIT HS HG HU. rewrite dot_minusf, residual_f by auto.
  pose proof (history_local n t U dU t0 HU) as HL.
  eapply der_eq; [|symmetry; apply pml].
  apply (der_fun (fun s => beam_energy vk b n qs sq S G (to_local t (U s)))); [intros; now rewrite in_axes_eq|].
  apply (der_energy n vk b FIT (fun s => to_local t (U s)) (to_local t dU) t0 HL); auto.
Qed.
Print Assumptions C140_energy.

Definition q0 (w : R) : qpt := mkQ w (fun _ => 0) (fun _ => 1/2) (fun a _ => match a with O => -1 | _ => 1 end) (fun _ => 0).
Definition S1 (x b0 b1 : R) : sect := mkS (fun i l => if Nat.eqb i l then x else 0) (fun i l => match i, l with O, O => b0 | O, _ => b1 | _, _ => 0 end) (fun i l => if Nat.eqb i l then 1 else 0).
Lemma S1_regular x b0 b1 : regular (S1 x b0 b1).
Proof. repeat split. Qed.
Definition ramp (c a : nat) (s : R) : dofs := fun d e => if (Nat.eqb c d && Nat.eqb a e)%bool then s else 0.
Lemma ramp_history n c a (t0 : R) : history6 n t0 (ramp c a) (unit_dof c a).
Proof.
  intros d e _ _. unfold ramp, unit_dof. destruct (Nat.eqb c d && Nat.eqb a e)%bool; [|apply (der_const 0)].
  apply (@is_derive_id R_AbsRing).
Qed.
Example C140_example : fits (BERNOULLI 1 (fun _ => 0)) 2 /\ regular (S1 3 1 2) /\ equal_shear (fun i l => if Nat.eqb i l then 2 else 0) /\
  history6 2 1 (ramp 2 1) (unit_dof 2 1) /\
  dot6 2 (minusf (fst (internal_residual 2 true (BERNOULLI 1 (fun _ => 0)) None [q0 1] [] (fun _ => S1 3 1 2) (fun _ _ _ => 0) (ramp 2 1 1) true zf zj)) zf) (unit_dof 2 1) = 3/2.
Proof.
  assert (F : fits (BERNOULLI 1 (fun _ => 0)) 2) by (split; [reflexivity|lra]).
  split; [exact F|]. split; [apply S1_regular|]. split; [repeat split|]. split; [apply ramp_history|].
  rewrite dot_minusf, residual_f by auto. cbn [to_local]. unfold WF. cbn [shears]. rewrite integral_cons, integral_nil.
  unfold wf, force, dax, ax, axial, twist, ky, kz, curv_y, curv_z, hermite'', cubic'', dx, ramp, unit_dof.
  cbn [sum S1 sA sB sD Nat.eqb andb bends q0 dphi jxw]. rewrite ?dot_zf. field.
Qed.

Theorem C140_shear_refuted : exists n qs sq S G (U : R -> dofs) dU t0 e, fits TIMOSHENKO n /\ (forall q, In q qs -> regular (S q)) /\
  (forall q, In q sq -> G q 0%nat 1%nat = 0 /\ G q 1%nat 0%nat = 0 /\ 0 < G q 0%nat 0%nat /\ 0 < G q 1%nat 1%nat) /\ history6 n t0 U dU /\
  is_derive (fun s => beam_energy false TIMOSHENKO n qs sq S G (in_axes None (U s))) t0 e /\
  forall req f j, dot6 n (minusf (fst (internal_residual n false TIMOSHENKO None qs sq S G (U t0) req f j)) f) dU <> e.
Proof.
  exists 2%nat, [], [q0 1], (fun _ => S1 1 0 0), (fun _ i l => if Nat.eqb i l then (if Nat.eqb i 0 then 1 else 2) else 0), (ramp 2 1), (unit_dof 2 1), 1, 2.
  split; [exact I|]. split; [intros q []|]. split; [intros q _; cbn [Nat.eqb]; repeat split; lra|].
  split; [apply ramp_history|]. split.
  - apply (der_ext (fun s => s * s) _ 1 (1 * 1 + 1 * 1)); [|ring|apply der_mult; apply (@is_derive_id R_AbsRing)].
    intros s. unfold beam_energy. cbn [shears in_axes]. rewrite integral_cons, !integral_nil. unfold shear_density, gamma, dx, value, in_axes, ramp.
    cbn [sum Nat.eqb andb q0 dphi phi jxw]. field.
  - intros req f j. rewrite dot_minusf, residual_f by exact I. cbn [to_local]. unfold WF. cbn [shears].
    rewrite integral_cons, !integral_nil. unfold sf, gamma, dx, value, ramp, unit_dof.
    cbn [sum Nat.eqb andb q0 dphi phi jxw]. lra.
Qed.
Print Assumptions C140_shear_refuted.

(** C141: the Jacobian of a beam is the derivative of its internal force *)
Theorem C141_jacobian : forall n vk b t qs sq S G (U : R -> dofs) dU (t0 : R) req f j c a, fits b n -> bends b = true ->
  (forall q, In q qs -> regular (S q)) -> history6 n t0 U dU -> (c < 6)%nat -> (a < n)%nat ->
  is_derive (fun s => fst (internal_residual n vk b t qs sq S G (U s) req f j) c a) t0
    (times6 n (minusj (snd (internal_residual n vk b t qs sq S G (U t0) true f j)) j) dU c a).
Proof.
  intros n vk b t qs sq S G U dU t0 req f j c a FIT Hb HS HU Hc Ha.
  rewrite times_bil by auto. rewrite bil_minusj, residual_j by (auto; apply regular_A; auto).
  eapply der_eq; [|symmetry; apply pml].
  apply (der_fun (fun s => dot6 n f (unit_dof c a) + WF n vk b qs sq S G (to_local t (U s)) (to_local t (unit_dof c a)))); [intros s; cbv beta; rewrite comp_f by (solve [auto|exact I]); reflexivity|].
  eapply der_add; [apply der_cst; reflexivity| |symmetry; apply Rplus_0_l].
  apply (der_WF n vk b FIT (fun s => to_local t (U s)) (to_local t dU) t0 (history_local n t U dU t0 HU)). apply regular_A; auto.
Qed.
Print Assumptions C141_jacobian.
Lemma WJ_sym n vk b qs sq S G u d v : (forall q, In q qs -> regular (S q)) -> WJ n vk b qs sq S G u d v = WJ n vk b qs sq S G u v d.
Proof.
  intros HS. unfold WJ. f_equal.
  - apply integral_ext. intros q Hq. destruct (HS q Hq) as (H1 & H2 & H3). unfold wj. rewrite H3. destruct (vk && bends b)%bool; ring.
  - destruct (shears b); [|reflexivity]. apply integral_ext. intros q Hq. unfold sf. ring.
Qed.
Theorem C141_symmetric : forall n vk b t qs sq S G U f j c a d e, fits b n -> bends b = true ->
  (forall q, In q qs -> regular (S q)) -> (c < 6)%nat -> (a < n)%nat -> (d < 6)%nat -> (e < n)%nat ->
  let J := minusj (snd (internal_residual n vk b t qs sq S G U true f j)) j in J c a d e = J d e c a.
Proof.
  intros n vk b t qs sq S G U f j c a d e FIT Hb HS Hc Ha Hd He J. unfold J.
  rewrite <- (times_unit n _ c a d e), <- (times_unit n _ d e c a), !times_bil by auto.
  rewrite !bil_minusj, !residual_j by (auto; apply regular_A; auto). rewrite (WJ_sym n vk b qs sq S G _ _ (to_local t (unit_dof c a))) by auto. ring.
Qed.
Print Assumptions C141_symmetric.

(** without a bending operator: all entries off the diagonal, and every diagonal entry of a size above the constant *)
Lemma max_diag_le n (M : dmat) c a : (c < 6)%nat -> (a < n)%nat -> M c a c a <= max_diag n M.
Proof.
  intros Hc Ha. unfold max_diag.
  assert (IN : In (c, a) (dof_list n)) by (apply in_prod; apply in_seq; lia).
  induction (dof_list n) as [|e l IHl]; [destruct IN|]. cbn [fold_right]. destruct IN as [->|IN].
  - cbn [fst snd]. apply Rmax_l.
  - eapply Rle_trans; [now apply IHl|apply Rmax_r].
Qed.
Definition raw n vk b t qs sq S G U (j : dmat) : dmat := plusj 1 (mat_to_global t (snd (local_internal n vk b qs sq S G (to_local t U) true))) j.
Lemma raw_j n vk b t qs sq S G U j d v : fits b n -> (forall q, In q qs -> regular (S q)) ->
  bil n (raw n vk b t qs sq S G U j) d v = bil n j d v + WJ n vk b qs sq S G (to_local t U) (to_local t d) (to_local t v).
Proof.
  intros FIT HS. unfold raw. rewrite bil_plusj, bil_global, local_j by (auto; apply regular_A; auto). ring.
Qed.
Lemma bar_snd n vk t qs sq S G U f j : snd (internal_residual n vk NO_BENDING t qs sq S G U true f j) = regularize n (raw n vk NO_BENDING t qs sq S G U j).
Proof. reflexivity. Qed.
Theorem C141_bar_partial : forall n vk t qs sq S G U req f j, (forall q, In q qs -> regular (S q)) ->
  exists D : dmat, (forall dU c a (V : R -> dofs), (c < 6)%nat -> (a < n)%nat -> history6 n 0 V dU -> (forall d e, (d < 6)%nat -> (e < n)%nat -> V 0 d e = U d e) ->
    is_derive (fun s => fst (internal_residual n vk NO_BENDING t qs sq S G (V s) req f j) c a) 0 (times6 n D dU c a)) /\
  let J := snd (internal_residual n vk NO_BENDING t qs sq S G U true f j) in
  (forall c a d e, (c <> d \/ a <> e) -> J c a d e = j c a d e + D c a d e) /\
  (forall c a, macheps <= Rabs (j c a c a + D c a c a) -> J c a c a = j c a c a + D c a c a) /\
  exists k, (forall c a, Rabs (j c a c a + D c a c a) < macheps -> J c a c a = j c a c a + D c a c a + macheps * k) /\
    (forall c a, (c < 6)%nat -> (a < n)%nat -> j c a c a + D c a c a <= k).
Proof.
  intros n vk t qs sq S G U req f j HS.
  set (M := raw n vk NO_BENDING t qs sq S G U j). exists (minusj M j). split; [|cbv zeta; split; [|split]].
  - intros dU c a V Hc Ha HV HV0. rewrite times_bil by auto. rewrite bil_minusj. unfold M. rewrite raw_j by (auto; exact I).
    eapply der_eq; [|symmetry; apply pml].
    apply (der_fun (fun s => dot6 n f (unit_dof c a) + WF n vk NO_BENDING qs sq S G (to_local t (V s)) (to_local t (unit_dof c a)))); [intros s; cbv beta; rewrite comp_f by (solve [auto|exact I]); reflexivity|].
    eapply der_add; [apply der_cst; reflexivity| |symmetry; apply Rplus_0_l].
    eapply der_eq; [apply (der_WF n vk NO_BENDING I (fun s => to_local t (V s)) (to_local t dU) 0 (history_local n t V dU 0 HV)); apply regular_A; auto|].
    unfold WJ. f_equal. apply integral_ext. intros q Hq. unfold wj, force, dax, ax, axial. rewrite !andb_false_r. ring.
  - intros c a d e Hn. rewrite bar_snd. fold M. unfold regularize, minusj.
    destruct (Nat.eqb_spec c d), (Nat.eqb_spec a e); cbn [andb]; try (ring; fail). destruct Hn; contradiction.
  - intros c a H. rewrite bar_snd. fold M. unfold regularize, minusj in *. rewrite !Nat.eqb_refl. cbn [andb].
    replace (j c a c a + (M c a c a - j c a c a)) with (M c a c a) in * by ring.
    destruct (rltb (Rabs (M c a c a)) macheps) eqn:E; [rbh E; lra|reflexivity].
  - exists (max_diag n M). split.
    + intros c a H. rewrite bar_snd. fold M. unfold regularize, minusj in *. rewrite !Nat.eqb_refl. cbn [andb].
      replace (j c a c a + (M c a c a - j c a c a)) with (M c a c a) in * by ring.
      destruct (rltb (Rabs (M c a c a)) macheps) eqn:E; [reflexivity|rbh E; lra].
    + intros c a Hc Ha. unfold minusj. replace (j c a c a + (M c a c a - j c a c a)) with (M c a c a) by ring. now apply max_diag_le.
Qed.
Print Assumptions C141_bar_partial.
Theorem C141_bar_refuted : exists n qs S U (V : R -> dofs) c a, (c < 6)%nat /\ (a < n)%nat /\ (forall q, In q qs -> regular (S q)) /\
  V 0 = U /\ history6 n 0 V (unit_dof c a) /\
  forall vk sq G, ~ is_derive (fun s => fst (internal_residual n vk NO_BENDING None qs sq S G (V s) true zf zj) c a) 0
    (snd (internal_residual n vk NO_BENDING None qs sq S G U true zf zj) c a c a).
Proof.
  exists 2%nat, [q0 1], (fun _ => S1 1 0 0), (ramp 1 1 0), (ramp 1 1), 1%nat, 1%nat.
  split; [lia|]. split; [lia|]. split; [intros; apply S1_regular|]. split; [reflexivity|]. split; [apply ramp_history|].
  intros vk sq G H.
  assert (Z : forall s, fst (internal_residual 2 vk NO_BENDING None [q0 1] sq (fun _ => S1 1 0 0) G (ramp 1 1 s) true zf zj) 1%nat 1%nat = 0).
  { intros s. rewrite <- (dot_unit 2 _ 1 1) by lia. rewrite residual_f by exact I. rewrite dot_zf. cbn [to_local]. unfold WF. cbn [shears].
    rewrite integral_cons, integral_nil. unfold wf, dax, twist, ky, kz, curv_y, curv_z, dx, unit_dof. rewrite !andb_false_r. cbn [bends sum Nat.eqb andb]. ring. }
  assert (K := is_derive_unique _ _ _ H). rewrite (Derive_ext _ (fun _ => 0)) in K by exact Z. rewrite Derive_const in K.
  rewrite bar_snd in K.
  set (M := raw 2 vk NO_BENDING None [q0 1] sq (fun _ => S1 1 0 0) G (ramp 1 1 0) zj) in *.
  assert (ME : forall c a, (c < 6)%nat -> (a < 2)%nat -> M c a c a = WJ 2 vk NO_BENDING [q0 1] sq (fun _ => S1 1 0 0) G (ramp 1 1 0) (unit_dof c a) (unit_dof c a)).
  { intros c a Hc Ha. rewrite <- (times_unit 2 M c a c a), times_bil by auto. unfold M. rewrite raw_j; [|exact I|intros; apply S1_regular]. rewrite bil_zj. cbn [to_local]. ring. }
  unfold regularize in K. cbn [Nat.eqb andb] in K. rewrite (ME 1%nat 1%nat) in K by lia.
  assert (M1 : M 0%nat 1%nat 0%nat 1%nat = 1).
  { rewrite ME by lia. unfold WJ. cbn [shears]. rewrite integral_cons, integral_nil. unfold wj, dax, twist, ky, kz, curv_y, curv_z, dx, unit_dof. rewrite !andb_false_r. cbn [bends sum Nat.eqb andb S1 sA q0 dphi jxw]. ring. }
  assert (M2 : WJ 2 vk NO_BENDING [q0 1] sq (fun _ => S1 1 0 0) G (ramp 1 1 0) (unit_dof 1 1) (unit_dof 1 1) = 0).
  { unfold WJ. cbn [shears]. rewrite integral_cons, integral_nil. unfold wj, dax, twist, ky, kz, curv_y, curv_z, dx, unit_dof. rewrite !andb_false_r. cbn [bends sum Nat.eqb andb S1 sA q0 dphi jxw]. ring. }
  rewrite M2, Rabs_R0 in K. pose proof (max_diag_le 2 M 0 1 ltac:(lia) ltac:(lia)) as KM. rewrite M1 in KM.
  assert (0 < macheps) by (unfold macheps; lra). destruct (rltb 0 macheps) eqn:E; [|rbh E; lra]. assert (0 < macheps * max_diag 2 M) by (apply Rmult_lt_0_compat; lra). lra.
Qed.
Print Assumptions C141_bar_refuted.

(** C142: derivatives of force and Jacobian with respect to a section parameter *)
Definition gated (dep : bool) (x : R) : R := if dep then x else 0.
Theorem C142_sensitivity : forall n vk b t dep qs sq (S : R -> qpt -> sect) S' (G : R -> qpt -> nat -> nat -> R) G' U (t0 : R) req req' f j f0 j0 c a, fits b n ->
  (forall q, In q qs -> section_derivative (fun s => S s q) (S' q) t0) -> (forall q, In q sq -> matrix_derivative (fun s => G s q) (G' q) t0) ->
  (dep = false -> forall s, S s = S t0 /\ G s = G t0) -> (c < 6)%nat -> (a < n)%nat ->
  is_derive (fun s => fst (internal_residual n vk b t qs sq (S s) (G s) U req f j) c a) t0
    (fst (internal_residual_sensitivity n vk b t dep qs sq S' G' U req' f0 j0) c a - f0 c a).
Proof.
  intros n vk b t dep qs sq S S' G G' U t0 req req' f j f0 j0 c a FIT HS HG HD Hc Ha. destruct dep.
  - replace (fst (internal_residual_sensitivity n vk b t true qs sq S' G' U req' f0 j0) c a - f0 c a)
      with (WF n vk b qs sq S' G' (to_local t U) (to_local t (unit_dof c a))).
    + apply (der_fun (fun s => dot6 n f (unit_dof c a) + WF n vk b qs sq (S s) (G s) (to_local t U) (to_local t (unit_dof c a)))); [intros s; cbv beta; rewrite comp_f by (solve [auto|exact I]); reflexivity|].
      eapply der_add; [apply der_cst; reflexivity| |symmetry; apply Rplus_0_l]. now apply der_WF_S.
    + rewrite <- (dot_unit n (fst _) c a) by auto. cbn [internal_residual_sensitivity fst]. rewrite dot_plusf, dot_global, local_f, dot_unit by auto. ring.
  - cbn [internal_residual_sensitivity fst]. apply (der_ext (fun _ => fst (internal_residual n vk b t qs sq (S t0) (G t0) U req f j) c a) _ t0 0); [|ring|apply der_const].
    intros s. destruct (HD eq_refl s) as [-> ->]. reflexivity.
Qed.
Print Assumptions C142_sensitivity.
Theorem C142_jacobian : forall n vk b t dep qs sq (S : R -> qpt -> sect) S' (G : R -> qpt -> nat -> nat -> R) G' U (t0 : R) f j f0 j0 c a d e, fits b n -> bends b = true ->
  (forall s q, In q qs -> regular (S s q)) -> (forall q, In q qs -> regular (S' q)) ->
  (forall q, In q qs -> section_derivative (fun s => S s q) (S' q) t0) -> (forall q, In q sq -> matrix_derivative (fun s => G s q) (G' q) t0) ->
  (dep = false -> forall s, S s = S t0 /\ G s = G t0) -> (c < 6)%nat -> (a < n)%nat -> (d < 6)%nat -> (e < n)%nat ->
  is_derive (fun s => snd (internal_residual n vk b t qs sq (S s) (G s) U true f j) c a d e) t0
    (snd (internal_residual_sensitivity n vk b t dep qs sq S' G' U true f0 j0) c a d e - j0 c a d e).
Proof.
  intros n vk b t dep qs sq S S' G G' U t0 f j f0 j0 c a d e FIT Hb HR HR' HS HG HD Hc Ha Hd He. destruct dep.
  - replace (snd (internal_residual_sensitivity n vk b t true qs sq S' G' U true f0 j0) c a d e - j0 c a d e)
      with (WJ n vk b qs sq S' G' (to_local t U) (to_local t (unit_dof c a)) (to_local t (unit_dof d e))).
    + apply (der_fun (fun s => j c a d e + WJ n vk b qs sq (S s) (G s) (to_local t U) (to_local t (unit_dof c a)) (to_local t (unit_dof d e)))).
      * intros s. rewrite <- (times_unit n (snd _) c a d e), times_bil, residual_j by (auto; apply regular_A; auto). now rewrite <- times_bil, times_unit by auto.
      * eapply der_add; [apply der_cst; reflexivity| |symmetry; apply Rplus_0_l]. apply der_WJ_S; auto.
    + rewrite <- (times_unit n (snd _) c a d e), times_bil by auto. cbn [internal_residual_sensitivity snd].
      rewrite bil_plusj, bil_global, local_j by (auto; apply regular_A; auto). rewrite <- times_bil, times_unit by auto. ring.
  - cbn [internal_residual_sensitivity snd]. apply (der_ext (fun _ => snd (internal_residual n vk b t qs sq (S t0) (G t0) U true f j) c a d e) _ t0 0); [|ring|apply der_const].
    intros s. destruct (HD eq_refl s) as [-> ->]. reflexivity.
Qed.
Print Assumptions C142_jacobian.
Lemma id_der (t0 : R) : is_derive (fun s : R => s) t0 1.
Proof. apply (@is_derive_id R_AbsRing). Qed.
Example C142_example : section_derivative (fun s => S1 s s 0) (mkS (fun i l => if Nat.eqb i l then 1 else 0) (fun i l => match i, l with O, O => 1 | _, _ => 0 end) (fun _ _ => 0)) 2 /\
  matrix_derivative (fun s i l => if Nat.eqb i l then s else 0) (fun i l => if Nat.eqb i l then 1 else 0) 2.
Proof.
  split.
  - intros i l Hi Hl; destruct i as [|[|i]]; [| |lia]; (destruct l as [|[|l]]; [| |lia]); cbn; (split; [|split]); try apply id_der; try apply (der_const 0); try apply (der_const 1).
  - intros i l Hi Hl; destruct i as [|[|i]]; [| |lia]; (destruct l as [|[|l]]; [| |lia]); cbn; try apply id_der; try apply (der_const 0).
Qed.

(** C143: derivative of the Jacobian along a change of the unknowns *)
Theorem C143_jacobian_dot_partial : forall n vk b t qs sq S G (U : R -> dofs) dU (t0 : R) f j j0 c a d e, fits b n -> bends b = true ->
  (forall q, In q qs -> regular (S q)) -> (vk = true -> forall q, In q qs -> sB (S q) 0%nat 0%nat = sB (S q) 0%nat 1%nat) ->
  history6 n t0 U dU -> (c < 6)%nat -> (a < n)%nat -> (d < 6)%nat -> (e < n)%nat ->
  is_derive (fun s => snd (internal_residual n vk b t qs sq S G (U s) true f j) c a d e) t0
    (jac_dot_state_sensitivity n vk b t qs S (U t0) dU j0 c a d e - j0 c a d e).
Proof.
  intros n vk b t qs sq S G U dU t0 f j j0 c a d e FIT Hb HS HB HU Hc Ha Hd He.
  rewrite <- (times_unit n (jac_dot_state_sensitivity n vk b t qs S (U t0) dU j0) c a d e), times_bil, jac_dot_f by (auto; apply regular_A; auto).
  rewrite <- times_bil, times_unit by auto.
  apply (der_fun (fun s => j c a d e + WJ n vk b qs sq S G (to_local t (U s)) (to_local t (unit_dof c a)) (to_local t (unit_dof d e)))).
  - intros s. rewrite <- (times_unit n (snd _) c a d e), times_bil, residual_j by (auto; apply regular_A; auto). now rewrite <- times_bil, times_unit by auto.
  - eapply der_add; [apply der_cst; reflexivity|apply (der_WJ n vk b FIT (fun s => to_local t (U s)) (to_local t dU)); [now apply history_local|apply regular_A; auto]|].
    destruct vk; [|ring]. rewrite (integral_ext _ _ (fun q => wjj n b (S q) q (to_local t (U t0)) (to_local t dU) (to_local t (unit_dof c a)) (to_local t (unit_dof d e)))); [ring|].
    intros q Hq. unfold typo. rewrite (HB eq_refl q Hq). destruct (bends b); ring.
Qed.
Print Assumptions C143_jacobian_dot_partial.
Theorem C143_jacobian_dot_refuted : exists n b qs S (U : R -> dofs) dU t0 c a d e, fits b n /\ bends b = true /\ (forall q, In q qs -> regular (S q)) /\
  history6 n t0 U dU /\ (c < 6)%nat /\ (a < n)%nat /\ (d < 6)%nat /\ (e < n)%nat /\
  forall sq G, ~ is_derive (fun s => snd (internal_residual n true b None qs sq S G (U s) true zf zj) c a d e) t0
    (jac_dot_state_sensitivity n true b None qs S (U t0) dU zj c a d e).
Proof.
  exists 2%nat, TIMOSHENKO, [q0 1], (fun _ => S1 1 1 2), (ramp 1 1), (unit_dof 1 1), 0, 1%nat, 1%nat, 5%nat, 1%nat.
  split; [exact I|]. split; [reflexivity|]. split; [intros; apply S1_regular|]. split; [apply ramp_history|]. do 4 (split; [lia|]).
  intros sq G H. assert (HS : forall q, In q [q0 1] -> regular (S1 1 1 2)) by (intros; apply S1_regular).
  pose proof (der_WJ 2 true TIMOSHENKO I (ramp 1 1) (unit_dof 1 1) 0 [q0 1] sq (fun _ => S1 1 1 2) G (unit_dof 1 1) (unit_dof 5 1) (ramp_history _ _ _ _) (regular_A _ _ HS)) as K.
  apply (der_fun _ (fun s => WJ 2 true TIMOSHENKO [q0 1] sq (fun _ => S1 1 1 2) G (ramp 1 1 s) (unit_dof 1 1) (unit_dof 5 1))) in H.
  - assert (E := eq_trans (eq_sym (is_derive_unique _ _ _ H)) (is_derive_unique _ _ _ K)). revert E. clear K H.
    rewrite <- (times_unit 2 (jac_dot_state_sensitivity _ _ _ _ _ _ _ _ _) 1 1 5 1), times_bil by lia.
    rewrite jac_dot_f by (try exact I; apply regular_A; auto). rewrite bil_zj. cbn [to_local]. rewrite !integral_cons, !integral_nil.
    unfold wjj, typo, dax, ky, kz, curv_y, curv_z, dx, unit_dof, ramp. cbn [bends andb sum Nat.eqb S1 sA sB q0 dphi jxw]. lra.
  - intros s. rewrite <- (times_unit 2 (snd _) 1 1 5 1), times_bil by lia. rewrite residual_j; [|exact I|reflexivity|apply regular_A; auto]. rewrite bil_zj. cbn [to_local]. ring.
Qed.
Print Assumptions C143_jacobian_dot_refuted.
