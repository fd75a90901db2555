From Coq Require Import Reals Lra.
From Coquelicot Require Import Coquelicot.
From Coq Require Import List Arith Bool Lia.
From Verif Require Import Base BaseLemmas Sens_Spec Sens_Proofs Sens_Proofs2 Heat_Proofs Solid_Model Solid_Spec Solid_Proofs2 Dof6_Model Dof6_Proofs Beam_Spec Beam_Proofs Beam_Proofs2 Beam_Props Beam_Props2 Plate_Model Plate_Spec Plate_Proofs Plate_Proofs2 Plate_Proofs3 Plate_Proofs4 Plate_Proofs5.
Import ListNotations.
Open Scope R_scope.

Lemma pcomp_f n nl b t qs sq S G U req f j c a : pfits b n -> (c < 6)%nat -> (a < n)%nat ->
  fst (internal_residual n nl b t qs sq S G U req f j) c a = f c a + WF n nl b qs sq S G (to_local t U) (to_local t (unit_dof c a)).
Proof. intros. rewrite <- (dot_unit n (fst _) c a), residual_f, dot_unit by auto. reflexivity. Qed.

(** C148: the internal force of a plate is the derivative of its stored energy *)
Theorem C148_energy : forall n nl b t qs sq S G (U : R -> dofs) dU (t0 : R) req f j, pfits b n ->
  (forall q, In q qs -> psym (S q)) -> (pshears b = true -> forall q, In q sq -> msym 2 (G q)) -> history6 n t0 U dU ->
  is_derive (fun s => plate_energy nl b n qs sq S G (in_axes t (U s))) t0
    (dot6 n (minusf (fst (internal_residual n nl b t qs sq S G (U t0) req f j)) f) dU).
Proof.
  intros n nl b t qs sq S G U dU t0 req f j FIT HS HG HU. rewrite dot_minusf, residual_f by auto.
  pose proof (history_local n t U dU t0 HU) as HL.
  eapply der_eq; [|symmetry; apply pml].
  apply (der_fun (fun s => plate_energy nl b n qs sq S G (to_local t (U s)))); [intros; now rewrite in_axes_eq|].
  apply (der_energy n nl b FIT (fun s => to_local t (U s)) (to_local t dU) t0 HL); auto.
Qed.
Print Assumptions C148_energy.

(** a point of a two-node strip in x direction, a section *)
Definition p0 : qpt := mkQ 1 (fun _ => 0) (fun _ => 1/2) (fun a i => match i with O => match a with O => -1 | _ => 1 end | _ => 0 end) (fun _ => 0).
Definition P1 (x y z : R) : psect := mkP (fun i l => if Nat.eqb i l then x else 0) (fun i l => if Nat.eqb i l then y else 0) (fun i l => if Nat.eqb i l then z else 0).
Lemma diag_sym m x : msym m (fun i l => if Nat.eqb i l then x else 0).
Proof. intros i l _ _. now rewrite Nat.eqb_sym. Qed.
Lemma P1_sym x y z : psym (P1 x y z).
Proof. split; apply diag_sym. Qed.
Definition hold (c a : nat) (x : R) (u : dofs) : dofs := fun d e => if (Nat.eqb d c && Nat.eqb e a)%bool then x else u d e.
Lemma hold_history n c a x (u : R -> dofs) du (t0 : R) : history6 n t0 u du -> history6 n t0 (fun s => hold c a x (u s)) (hold c a 0 du).
Proof.
  intros H d e Hd He. unfold hold. destruct (Nat.eqb d c && Nat.eqb e a)%bool; [apply (der_const x)|now apply H].
Qed.
Ltac pl := unfold WF, WJ, MISS, wf, wj, miss, sf, Nf, eps, deps, dgl, dvk, dlin, sym2, membrane, curvature, beta_grad, pgamma, node_beta, grad, flag, hold, ramp, unit_dof;
  rewrite ?integral_cons, ?integral_nil; cbn [pshears pbends andb sum Nat.eqb P1 pA pB pD p0 jxw phi dphi in_axes to_local].
Example C148_example : pfits MINDLIN 2 /\ psym (P1 3 1 2) /\ msym 2 (fun i l => if Nat.eqb i l then 2 else 0) /\
  history6 2 1 (ramp 2 1) (unit_dof 2 1) /\
  dot6 2 (minusf (fst (internal_residual 2 true MINDLIN None [p0] [p0] (fun _ => P1 3 1 2) (fun _ i l => if Nat.eqb i l then 2 else 0) (ramp 2 1 1) true zf zj)) zf) (unit_dof 2 1) = 7/2.
Proof.
  split; [exact I|]. split; [apply P1_sym|]. split; [apply diag_sym|]. split; [apply ramp_history|].
  rewrite dot_minusf, residual_f by exact I. cbn [to_local]. pl. rewrite ?dot_zf. field.
Qed.
Definition P3 (a k : nat) : R := match a, k with 1%nat, 0%nat => 3 | 2%nat, 1%nat => 4 | _, _ => 0 end.
Example C148_example_dkt : pfits (DKT P3 (fun _ _ _ => 0)) 3.
Proof. split; [reflexivity|]. unfold ccw, P3. repeat split; lra. Qed.

(** C149: the Jacobian of a plate *)
Definition plane_still (n : nat) (t : frame) (qs : list qpt) (u : dofs) : Prop :=
  forall q c i, In q qs -> (c < 2)%nat -> (i < 2)%nat -> grad n q (in_axes t u) c i = 0.
Lemma still_dgl n nl t qs u : plane_still n t qs u -> forall q d r, In q qs -> dgl n nl q (to_local t u) d r = 0.
Proof.
  intros H q d r Hq. rewrite <- in_axes_eq. unfold dgl, sym2, flag. destruct nl; [|reflexivity].
  destruct r as [|[|r]]; rewrite !(H q) by (auto; lia); ring.
Qed.
Lemma dgl_comm n nl q u d r : dgl n nl q u d r = dgl n nl q d u r.
Proof. unfold dgl, sym2, flag. destruct nl; [|reflexivity]. destruct r as [|[|r]]; ring. Qed.
Lemma dvk_comm n nl b q u d r : dvk n nl b q u d r = dvk n nl b q d u r.
Proof. unfold dvk, sym2, flag. destruct (nl && pbends b)%bool; [|reflexivity]. destruct r as [|[|r]]; ring. Qed.
Lemma MISS_0 n nl b t qs S U d v : pfits b n -> (nl = false \/ pbends b = false \/ plane_still n t qs U) ->
  MISS n nl b qs S (to_local t U) d v = 0.
Proof.
  intros FIT H. unfold MISS. apply integral_0. intros q Hq. unfold miss. apply sum_0. intros r _. apply sum_0. intros l _.
  destruct H as [E|[E|E]].
  - unfold dgl. rewrite E. cbn [flag]. ring.
  - unfold dvk. rewrite E, andb_false_r, !(no_k n b FIT E). cbn [flag]. ring.
  - rewrite !(still_dgl n nl t qs U E q) by auto. ring.
Qed.
Theorem C149_jacobian_partial : forall n nl b t qs sq S G (U : R -> dofs) dU (t0 : R) req f j c a, pfits b n ->
  (nl = false \/ pbends b = false \/ plane_still n t qs (U t0)) -> history6 n t0 U dU -> (c < 6)%nat -> (a < n)%nat ->
  is_derive (fun s => fst (internal_residual n nl b t qs sq S G (U s) req f j) c a) t0
    (times6 n (minusj (snd (internal_residual n nl b t qs sq S G (U t0) true f j)) j) dU c a - drill n t (unit_dof c a) dU).
Proof.
  intros n nl b t qs sq S G U dU t0 req f j c a FIT HM HU Hc Ha.
  rewrite times_bil by auto. rewrite bil_minusj, residual_j, MISS_0 by auto.
  apply (der_fun (fun s => f c a + WF n nl b qs sq S G (to_local t (U s)) (to_local t (unit_dof c a)))); [intros s; cbv beta; rewrite pcomp_f by auto; reflexivity|].
  eapply der_eq; [eapply der_add; [apply der_cst; reflexivity| |symmetry; apply Rplus_0_l]|].
  - apply (der_WF n nl b FIT (fun s => to_local t (U s)) (to_local t dU) t0 (history_local n t U dU t0 HU)).
  - ring.
Qed.
Print Assumptions C149_jacobian_partial.
Lemma MISS_sym n nl b qs S u d v : (forall q, In q qs -> psym (S q)) -> MISS n nl b qs S u d v = MISS n nl b qs S u v d.
Proof.
  intros HS. unfold MISS. apply integral_ext. intros q Hq. destruct (HS q Hq) as [HA _]. unfold miss. cbn [sum].
  rewrite (HA 1%nat 0%nat), (HA 2%nat 0%nat), (HA 2%nat 1%nat) by lia. ring.
Qed.
Lemma WJ_sym n nl b qs sq S G u d v : (forall q, In q qs -> psym (S q)) -> (pshears b = true -> forall q, In q sq -> msym 2 (G q)) ->
  WJ n nl b qs sq S G u d v = WJ n nl b qs sq S G u v d.
Proof.
  intros HS HG. unfold WJ. f_equal.
  - apply integral_ext. intros q Hq. destruct (HS q Hq) as [HA HD]. unfold wj. cbn [sum].
    rewrite !(dgl_comm n nl q v d), !(dvk_comm n nl b q v d).
    rewrite (HA 1%nat 0%nat), (HA 2%nat 0%nat), (HA 2%nat 1%nat), (HD 1%nat 0%nat), (HD 2%nat 0%nat), (HD 2%nat 1%nat) by lia. ring.
  - destruct (pshears b); [|reflexivity]. apply integral_ext. intros q Hq. unfold sf. cbn [sum]. rewrite (HG eq_refl q Hq 1%nat 0%nat) by lia. ring.
Qed.
Lemma drill_sym n t d v : drill n t d v = drill n t v d.
Proof. unfold drill. f_equal. apply sum_ext. intros. ring. Qed.
Theorem C149_symmetric : forall n nl b t qs sq S G U f j c a d e, pfits b n ->
  (forall q, In q qs -> psym (S q)) -> (pshears b = true -> forall q, In q sq -> msym 2 (G q)) ->
  (c < 6)%nat -> (a < n)%nat -> (d < 6)%nat -> (e < n)%nat ->
  let J := minusj (snd (internal_residual n nl b t qs sq S G U true f j)) j in J c a d e = J d e c a.
Proof.
  intros n nl b t qs sq S G U f j c a d e FIT HS HG Hc Ha Hd He J. unfold J.
  rewrite (entry n _ c a d e), (entry n _ d e c a) by auto.
  rewrite !bil_minusj, !residual_j by auto. rewrite (WJ_sym n nl b qs sq S G _ _ (to_local t (unit_dof c a))), (MISS_sym n nl b qs S _ _ (to_local t (unit_dof c a))), (drill_sym n t (unit_dof d e)) by auto. ring.
Qed.
Print Assumptions C149_symmetric.
(** the blocks that couple in-plane rotations with deflections are missing *)
Theorem C149_jacobian_refuted : exists n qs sq S G (U : R -> dofs) dU t0 c a, (forall q, In q qs -> psym (S q)) /\ (forall q, In q sq -> msym 2 (G q)) /\
  history6 n t0 U dU /\ (c < 6)%nat /\ (a < n)%nat /\
  forall req, ~ is_derive (fun s => fst (internal_residual n true MINDLIN None qs sq S G (U s) req zf zj) c a) t0
    (times6 n (minusj (snd (internal_residual n true MINDLIN None qs sq S G (U t0) true zf zj)) zj) dU c a - drill n None (unit_dof c a) dU).
Proof.
  exists 2%nat, [p0], [], (fun _ => P1 1 0 1), (fun _ _ _ => 0), (fun s => hold 0 1 1 (ramp 2 1 s)), (hold 0 1 0 (unit_dof 2 1)), 1, 0%nat, 1%nat.
  split; [intros; apply P1_sym|]. split; [intros q []|]. split; [apply hold_history, ramp_history|]. split; [lia|]. split; [lia|].
  intros req H. pose proof (der_WF 2 true MINDLIN I (fun s => hold 0 1 1 (ramp 2 1 s)) (hold 0 1 0 (unit_dof 2 1)) 1 (hold_history _ _ _ _ _ _ _ (ramp_history 2 2 1 1)) [p0] [] (fun _ => P1 1 0 1) (fun _ _ _ => 0) (unit_dof 0 1)) as K.
  apply (der_fun _ (fun s => WF 2 true MINDLIN [p0] [] (fun _ => P1 1 0 1) (fun _ _ _ => 0) (hold 0 1 1 (ramp 2 1 s)) (unit_dof 0 1))) in H.
  - assert (E := eq_trans (eq_sym (is_derive_unique _ _ _ H)) (is_derive_unique _ _ _ K)). revert E. clear K H.
    rewrite times_bil by lia. rewrite bil_minusj, residual_j by exact I. cbn [to_local]. unfold drill. pl. lra.
  - intros s. rewrite pcomp_f by (try exact I; lia). cbn [to_local]. unfold zf. ring.
Qed.
Print Assumptions C149_jacobian_refuted.
(** the stiffness of the rotation about the normal belongs to no force *)
Theorem C149_drilling_refuted : exists n qs sq S G (U : R -> dofs) dU t0 c a, (forall q, In q qs -> psym (S q)) /\ (forall q, In q sq -> msym 2 (G q)) /\
  history6 n t0 U dU /\ (c < 6)%nat /\ (a < n)%nat /\
  forall req, ~ is_derive (fun s => fst (internal_residual n false MINDLIN None qs sq S G (U s) req zf zj) c a) t0
    (times6 n (minusj (snd (internal_residual n false MINDLIN None qs sq S G (U t0) true zf zj)) zj) dU c a).
Proof.
  exists 2%nat, [p0], [], (fun _ => P1 1 0 1), (fun _ _ _ => 0), (ramp 5 1), (unit_dof 5 1), 1, 5%nat, 1%nat.
  split; [intros; apply P1_sym|]. split; [intros q []|]. split; [apply ramp_history|]. split; [lia|]. split; [lia|].
  intros req H. pose proof (C149_jacobian_partial 2 false MINDLIN None [p0] [] (fun _ => P1 1 0 1) (fun _ _ _ => 0) (ramp 5 1) (unit_dof 5 1) 1 req zf zj 5 1 I (or_introl eq_refl) (ramp_history _ _ _ _) ltac:(lia) ltac:(lia)) as K.
  assert (E := eq_trans (eq_sym (is_derive_unique _ _ _ H)) (is_derive_unique _ _ _ K)). revert E. clear K H.
  unfold drill. cbn [in_axes sum]. unfold unit_dof. cbn [Nat.eqb andb]. lra.
Qed.
Print Assumptions C149_drilling_refuted.
Example C149_example : plane_still 2 None [p0] (ramp 2 1 3) /\ history6 2 3 (ramp 2 1) (unit_dof 2 1) /\
  times6 2 (minusj (snd (internal_residual 2 true MINDLIN None [p0] [] (fun _ => P1 1 0 1) (fun _ _ _ => 0) (ramp 2 1 3) true zf zj)) zj) (unit_dof 2 1) 2 1 <> 0.
Proof.
  split; [|split; [apply ramp_history|]].
  - intros q c i [<-|[]] Hc Hi. cbn [in_axes]. destruct c as [|[|c]]; [| |lia]; (destruct i as [|[|i]]; [| |lia]); unfold grad, ramp; cbn [sum p0 dphi Nat.eqb andb]; cbn; lra.
  - rewrite times_bil, bil_minusj, residual_j by (try exact I; lia). cbn [to_local]. unfold drill. pl. rewrite bil_zj. lra.
Qed.

(** C150: derivatives of force and Jacobian with respect to a section parameter *)
Theorem C150_sensitivity : forall n nl b t dep qs sq (S : R -> qpt -> psect) S' (G : R -> qpt -> nat -> nat -> R) G' U (t0 : R) req req' f j f0 j0 c a, pfits b n ->
  (forall q, In q qs -> psect_der (fun s => S s q) (S' q) t0) -> (forall q, In q sq -> mat_der 2 (fun s => G s q) (G' q) t0) ->
  (dep = false -> forall s, S s = S t0 /\ G s = G t0) -> (c < 6)%nat -> (a < n)%nat ->
  is_derive (fun s => fst (internal_residual n nl b t qs sq (S s) (G s) U req f j) c a) t0
    (fst (internal_residual_sensitivity n nl b t dep qs sq S' G' U req' f0 j0) c a - f0 c a).
Proof.
  intros n nl b t dep qs sq S S' G G' U t0 req req' f j f0 j0 c a FIT HS HG HD Hc Ha. destruct dep.
  - replace (fst (internal_residual_sensitivity n nl b t true qs sq S' G' U req' f0 j0) c a - f0 c a)
      with (WF n nl b qs sq S' G' (to_local t U) (to_local t (unit_dof c a))).
    + apply (der_fun (fun s => f c a + WF n nl b qs sq (S s) (G s) (to_local t U) (to_local t (unit_dof c a)))); [intros s; cbv beta; rewrite pcomp_f by auto; reflexivity|].
      eapply der_add; [apply der_cst; reflexivity| |symmetry; apply Rplus_0_l]. now apply der_WF_S.
    + rewrite <- (dot_unit n (fst _) c a) by auto. cbn [internal_residual_sensitivity fst]. rewrite dot_plusf, dot_global, local_f, dot_unit by auto. ring.
  - cbn [internal_residual_sensitivity fst]. apply (der_ext (fun _ => fst (internal_residual n nl b t qs sq (S t0) (G t0) U req f j) c a) _ t0 0); [|ring|apply der_const].
    intros s. destruct (HD eq_refl s) as [-> ->]. reflexivity.
Qed.
Print Assumptions C150_sensitivity.
Theorem C150_jacobian : forall n nl b t dep qs sq (S : R -> qpt -> psect) S' (G : R -> qpt -> nat -> nat -> R) G' U (t0 : R) f j f0 j0 c a d e, pfits b n ->
  (forall q, In q qs -> psect_der (fun s => S s q) (S' q) t0) -> (forall q, In q sq -> mat_der 2 (fun s => G s q) (G' q) t0) ->
  (dep = false -> forall s, S s = S t0 /\ G s = G t0) -> (c < 6)%nat -> (a < n)%nat -> (d < 6)%nat -> (e < n)%nat ->
  is_derive (fun s => snd (internal_residual n nl b t qs sq (S s) (G s) U true f j) c a d e) t0
    (snd (internal_residual_sensitivity n nl b t dep qs sq S' G' U true f0 j0) c a d e - j0 c a d e).
Proof.
  intros n nl b t dep qs sq S S' G G' U t0 f j f0 j0 c a d e FIT HS HG HD Hc Ha Hd He. destruct dep.
  - set (ud := to_local t (unit_dof c a)). set (uv := to_local t (unit_dof d e)).
    replace (snd (internal_residual_sensitivity n nl b t true qs sq S' G' U true f0 j0) c a d e - j0 c a d e)
      with (WJ n nl b qs sq S' G' (to_local t U) ud uv - MISS n nl b qs S' (to_local t U) ud uv).
    + apply (der_fun (fun s => (j c a d e + drill n t (unit_dof c a) (unit_dof d e)) + (WJ n nl b qs sq (S s) (G s) (to_local t U) ud uv - MISS n nl b qs (S s) (to_local t U) ud uv))).
      * intros s. rewrite (entry n (snd _) c a d e), residual_j, <- entry by auto. fold ud uv. ring.
      * eapply der_add; [apply der_cst; reflexivity|apply der_WJ_S; eauto|ring].
    + rewrite (entry n (snd _) c a d e) by auto. cbn [internal_residual_sensitivity snd].
      rewrite bil_plusj, bil_global, local_j, <- entry by auto. fold ud uv. ring.
  - cbn [internal_residual_sensitivity snd]. apply (der_ext (fun _ => snd (internal_residual n nl b t qs sq (S t0) (G t0) U true f j) c a d e) _ t0 0); [|ring|apply der_const].
    intros s. destruct (HD eq_refl s) as [-> ->]. reflexivity.
Qed.
Print Assumptions C150_jacobian.
Lemma diag_der m (x : R -> R) x' (t0 : R) : is_derive x t0 x' -> mat_der m (fun s i l => if Nat.eqb i l then x s else 0) (fun i l => if Nat.eqb i l then x' else 0) t0.
Proof. intros H i l _ _. destruct (Nat.eqb i l); [exact H|apply (der_const 0)]. Qed.
Example C150_example : psect_der (fun s => P1 s (2 * s) (s * s)) (P1 1 2 6) 3 /\ mat_der 2 (fun s i l => if Nat.eqb i l then s else 0) (fun i l => if Nat.eqb i l then 1 else 0) 3.
Proof.
  split; [split; [|split]|]; apply diag_der; try apply id_der.
  - eapply der_sc; [apply id_der|ring].
  - eapply (der_mul 3 (fun s => s) (fun s => s)); [apply id_der|apply id_der|ring].
Qed.

(** C151: derivative of the Jacobian along a change of the unknowns *)
Theorem C151_jacobian_dot_partial : forall n nl b t qs sq S G (U : R -> dofs) dU (t0 : R) f j j0 c a d e, pfits b n ->
  (nl = false \/ (plane_still n t qs (U t0) /\ plane_still n t qs dU /\ (plane_still n t qs (unit_dof c a) \/ plane_still n t qs (unit_dof d e)))) ->
  history6 n t0 U dU -> (c < 6)%nat -> (a < n)%nat -> (d < 6)%nat -> (e < n)%nat ->
  is_derive (fun s => snd (internal_residual n nl b t qs sq S G (U s) true f j) c a d e) t0
    (jac_dot_state_sensitivity n nl b t qs S (U t0) dU j0 c a d e - j0 c a d e).
Proof.
  intros n nl b t qs sq S G U dU t0 f j j0 c a d e FIT HP HU Hc Ha Hd He.
  rewrite (entry n (jac_dot_state_sensitivity n nl b t qs S (U t0) dU j0) c a d e), jac_dot_f, <- entry by auto.
  set (ud := to_local t (unit_dof c a)). set (uv := to_local t (unit_dof d e)).
  apply (der_fun (fun s => (j c a d e + drill n t (unit_dof c a) (unit_dof d e) + (if pshears b then integral sq (fun q => sf n (G q) q uv ud) else 0))
     + integral qs (fun q => wj n nl b (S q) q (to_local t (U s)) ud uv + -1 * miss n nl b (S q) q (to_local t (U s)) ud uv))).
  - intros s. rewrite (entry n (snd _) c a d e), residual_j, <- entry by auto. fold ud uv. unfold WJ, MISS.
    rewrite integral_add, integral_mul. ring.
  - eapply der_add; [apply der_cst; reflexivity| |].
    + apply (der_int qs (fun s q => wj n nl b (S q) q (to_local t (U s)) ud uv + -1 * miss n nl b (S q) q (to_local t (U s)) ud uv)). intros q _.
      apply der_plus; [apply (der_wj n nl b FIT (fun s => to_local t (U s)) (to_local t dU)); now apply history_local|apply der_scal; apply (der_miss n nl b (fun s => to_local t (U s)) (to_local t dU)); now apply history_local].
    + cbv beta.
      match goal with |- ?a + ?x - ?a = 0 + ?y => cut (x = y); [intros ->; ring|] end.
      destruct HP as [E|(H1 & H2 & H3)].
      * rewrite E. cbn [flag]. symmetry. apply integral_0. intros q _. rewrite <- E. unfold wjj, missd, dgl, dvk. rewrite E. cbn [flag andb sum]. ring.
      * destruct nl eqn:E; cbn [flag].
        -- apply integral_ext. intros q Hq. unfold jd, wjj, missd, deps. cbn [sum].
           rewrite !(still_dgl n true t qs (U t0) H1 q), !(still_dgl n true t qs dU H2 q) by auto.
           assert (Z : forall r, dgl n true q uv ud r = 0) by (intros r; destruct H3 as [H3|H3]; [rewrite dgl_comm|]; apply (still_dgl n true t qs _ H3 q _ r Hq)).
           rewrite !Z. ring.
        -- symmetry. apply integral_0. intros q _. unfold wjj, missd, dgl, dvk. cbn [flag andb sum]. ring.
Qed.
Print Assumptions C151_jacobian_dot_partial.
Theorem C151_jacobian_dot_refuted : exists n b qs sq S G (U : R -> dofs) dU t0 c a d e, pfits b n /\ (forall q, In q qs -> psym (S q)) /\
  history6 n t0 U dU /\ (c < 6)%nat /\ (a < n)%nat /\ (d < 6)%nat /\ (e < n)%nat /\
  ~ is_derive (fun s => snd (internal_residual n true b None qs sq S G (U s) true zf zj) c a d e) t0
    (jac_dot_state_sensitivity n true b None qs S (U t0) dU zj c a d e).
Proof.
  exists 2%nat, NO_BENDING, [p0], [], (fun _ => P1 1 0 0), (fun _ _ _ => 0), (ramp 0 1), (unit_dof 0 1), 0, 0%nat, 1%nat, 0%nat, 1%nat.
  split; [exact I|]. split; [intros; apply P1_sym|]. split; [apply ramp_history|]. do 4 (split; [lia|]).
  intros H. pose proof (der_wj 2 true NO_BENDING I (ramp 0 1) (unit_dof 0 1) 0 (ramp_history _ _ _ _) (P1 1 0 0) p0 (unit_dof 0 1) (unit_dof 0 1)) as K.
  apply (der_fun _ (fun s => wj 2 true NO_BENDING (P1 1 0 0) p0 (ramp 0 1 s) (unit_dof 0 1) (unit_dof 0 1))) in H.
  - assert (E := eq_trans (eq_sym (is_derive_unique _ _ _ H)) (is_derive_unique _ _ _ K)). revert E. clear K H.
    rewrite (entry 2 _ 0 1 0 1) by lia. rewrite jac_dot_f by exact I. rewrite bil_zj. cbn [to_local flag]. rewrite integral_cons, integral_nil. unfold jd, wjj. pl. lra.
  - intros s. rewrite (entry 2 (snd _) 0 1 0 1) by lia. rewrite residual_j by exact I. rewrite bil_zj. cbn [to_local]. unfold drill, WJ, MISS.
    rewrite !integral_cons, !integral_nil. cbn [pshears in_axes sum]. unfold miss. pl. ring.
Qed.
Print Assumptions C151_jacobian_dot_refuted.
Example C151_example : plane_still 2 None [p0] (ramp 2 1 3) /\ plane_still 2 None [p0] (unit_dof 2 1) /\
  jac_dot_state_sensitivity 2 true MINDLIN None [p0] (fun _ => P1 1 0 1) (ramp 2 1 3) (unit_dof 2 1) zj 2%nat 1%nat 2%nat 1%nat = 9.
Proof.
  split; [|split].
  - intros q c i [<-|[]] Hc Hi. cbn [in_axes]. destruct c as [|[|c]]; [| |lia]; (destruct i as [|[|i]]; [| |lia]); unfold grad, ramp; cbn; lra.
  - intros q c i [<-|[]] Hc Hi. cbn [in_axes]. destruct c as [|[|c]]; [| |lia]; (destruct i as [|[|i]]; [| |lia]); unfold grad, unit_dof; cbn; lra.
  - rewrite (entry 2 _ 2 1 2 1), jac_dot_f by (try exact I; lia). rewrite bil_zj. cbn [to_local flag]. rewrite integral_cons, integral_nil. unfold jd. pl. lra.
Qed.
