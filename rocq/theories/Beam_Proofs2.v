From Coq Require Import Reals Lra.
From Coquelicot Require Import Coquelicot.
From Coq Require Import List Arith Bool Lia.
From Verif Require Import Base BaseLemmas RBool Sens_Spec Sens_Proofs Sens_Proofs2 Heat_Proofs Solid_Model Solid_Spec Solid_Proofs2 Dof6_Model Dof6_Proofs Beam_Model Beam_Spec Beam_Proofs.
Import ListNotations.
Open Scope R_scope.

(** derivative of a sum of products with leaves given by [leaf] *)
Ltac dd leaf := lazymatch goal with
  | |- is_derive (fun _ => ?k) _ _ => apply (der_cst _ k); reflexivity
  | |- is_derive (fun s => Rplus (@?f s) (@?g s)) _ _ => eapply (der_add _ f g); [dd leaf|dd leaf|reflexivity]
  | |- is_derive (fun s => Rmult (@?f s) (@?g s)) _ _ => eapply (der_mul _ f g); [dd leaf|dd leaf|reflexivity]
  | |- _ => leaf
  end.

Section B.
Variable n : nat.
Lemma dot_minusf f g d : dot6 n (minusf f g) d = dot6 n f d - dot6 n g d.
Proof.
  transitivity (dot6 n (plusf (-1) g f) d); [apply dot_ext; intros; unfold minusf, plusf; split; ring|]. rewrite dot_plusf. ring.
Qed.
Lemma bil_minusj f g d v : bil n (minusj f g) d v = bil n f d v - bil n g d v.
Proof.
  transitivity (bil n (plusj (-1) g f) d v).
  - unfold bil. apply dot_ext. intros c a _ _. split; [|reflexivity]. unfold times6. apply sum_ext. intros e _. apply sum_ext. intros h _. unfold minusj, plusj. ring.
  - rewrite bil_plusj. ring.
Qed.
Lemma times_bil j v c a : (c < 6)%nat -> (a < n)%nat -> times6 n j v c a = bil n j (unit_dof c a) v.
Proof. intros. unfold bil. now rewrite dot_unit. Qed.
Lemma component (F : R -> dofs) (t0 : R) c a x : (c < 6)%nat -> (a < n)%nat ->
  is_derive (fun s => dot6 n (F s) (unit_dof c a)) t0 x -> is_derive (fun s => F s c a) t0 x.
Proof. intros Hc Ha. apply der_fun. intros s. now apply dot_unit. Qed.
Lemma times_unit j c a d e : (d < 6)%nat -> (e < n)%nat -> times6 n j (unit_dof d e) c a = j c a d e.
Proof. intros. unfold times6. exact (dot_unit n (j c a) d e H H0). Qed.

Variable vk : bool.
Variable b : bending.
Variable t : frame.
Hypothesis FIT : fits b n.

Lemma residual_f qs sq S G U req f j d :
  dot6 n (fst (internal_residual n vk b t qs sq S G U req f j)) d = dot6 n f d + WF n vk b qs sq S G (to_local t U) (to_local t d).
Proof.
  unfold internal_residual. destruct req; cbn [fst]; rewrite dot_plusf, dot_global, local_f by auto; ring.
Qed.
Lemma residual_j qs sq S G U f j d v : bends b = true -> (forall q, In q qs -> sA (S q) 0%nat 1%nat = 0 /\ sA (S q) 1%nat 0%nat = 0) ->
  bil n (snd (internal_residual n vk b t qs sq S G U true f j)) d v =
  bil n j d v + WJ n vk b qs sq S G (to_local t U) (to_local t d) (to_local t v).
Proof.
  intros Hb HS. unfold internal_residual. rewrite Hb. cbn [snd]. rewrite bil_plusj, bil_global, local_j by auto. ring.
Qed.

(** *** dependence on the section *)
Lemma der_wf_S (S : R -> sect) S' t0 q u d : section_derivative S S' t0 -> is_derive (fun s => wf n vk b (S s) q u d) t0 (wf n vk b S' q u d).
Proof.
  intros H. assert (HA : forall i l, (i < 2)%nat -> (l < 2)%nat -> is_derive (fun s => sA (S s) i l) t0 (sA S' i l)) by (intros; now apply H).
  assert (HB : forall i l, (i < 2)%nat -> (l < 2)%nat -> is_derive (fun s => sB (S s) i l) t0 (sB S' i l)) by (intros; now apply H).
  assert (HD : forall i l, (i < 2)%nat -> (l < 2)%nat -> is_derive (fun s => sD (S s) i l) t0 (sD S' i l)) by (intros; now apply H).
  unfold wf, force. eapply der_eq; [dd ltac:(idtac; lazymatch goal with |- is_derive (fun s => sA (@?x s) ?i ?l) _ _ => apply (HA i l); lia | |- is_derive (fun s => sB (@?x s) ?i ?l) _ _ => apply (HB i l); lia | |- is_derive (fun s => sD (@?x s) ?i ?l) _ _ => apply (HD i l); lia end)|]. cbv beta. ring.
Qed.
Lemma der_wj_S (S : R -> sect) S' t0 q u d v : section_derivative S S' t0 -> is_derive (fun s => wj n vk b (S s) q u d v) t0 (wj n vk b S' q u d v).
Proof.
  intros H. assert (HA : forall i l, (i < 2)%nat -> (l < 2)%nat -> is_derive (fun s => sA (S s) i l) t0 (sA S' i l)) by (intros; now apply H).
  assert (HB : forall i l, (i < 2)%nat -> (l < 2)%nat -> is_derive (fun s => sB (S s) i l) t0 (sB S' i l)) by (intros; now apply H).
  assert (HD : forall i l, (i < 2)%nat -> (l < 2)%nat -> is_derive (fun s => sD (S s) i l) t0 (sD S' i l)) by (intros; now apply H).
  unfold wj, force. destruct (vk && bends b)%bool;
  (eapply der_eq; [dd ltac:(idtac; lazymatch goal with |- is_derive (fun s => sA (@?x s) ?i ?l) _ _ => apply (HA i l); lia | |- is_derive (fun s => sB (@?x s) ?i ?l) _ _ => apply (HB i l); lia | |- is_derive (fun s => sD (@?x s) ?i ?l) _ _ => apply (HD i l); lia end)|]; cbv beta; ring).
Qed.
Lemma der_sf_G (G : R -> nat -> nat -> R) G' t0 q u d : matrix_derivative G G' t0 -> is_derive (fun s => sf n (G s) q u d) t0 (sf n G' q u d).
Proof. intros H. unfold sf. eapply der_eq; [dd ltac:(idtac; apply H; lia)|]. cbv beta. ring. Qed.
Lemma der_WF_S qs sq (S : R -> qpt -> sect) S' (G : R -> qpt -> nat -> nat -> R) G' t0 u d :
  (forall q, In q qs -> section_derivative (fun s => S s q) (S' q) t0) -> (forall q, In q sq -> matrix_derivative (fun s => G s q) (G' q) t0) ->
  is_derive (fun s => WF n vk b qs sq (S s) (G s) u d) t0 (WF n vk b qs sq S' G' u d).
Proof.
  intros HS HG. unfold WF. eapply der_add; [| |reflexivity].
  - apply (der_int qs (fun s q => wf n vk b (S s q) q u d)). intros q Hq. apply (der_wf_S (fun s => S s q)). auto.
  - destruct (shears b); [|apply der_cst; reflexivity].
    apply (der_int sq (fun s q => sf n (G s q) q u d)). intros q Hq. apply (der_sf_G (fun s => G s q)). auto.
Qed.
Lemma der_WJ_S qs sq (S : R -> qpt -> sect) S' (G : R -> qpt -> nat -> nat -> R) G' t0 u d v :
  (forall q, In q qs -> section_derivative (fun s => S s q) (S' q) t0) -> (forall q, In q sq -> matrix_derivative (fun s => G s q) (G' q) t0) ->
  is_derive (fun s => WJ n vk b qs sq (S s) (G s) u d v) t0 (WJ n vk b qs sq S' G' u d v).
Proof.
  intros HS HG. unfold WJ. eapply der_add; [| |reflexivity].
  - apply (der_int qs (fun s q => wj n vk b (S s q) q u d v)). intros q Hq. apply (der_wj_S (fun s => S s q)). auto.
  - destruct (shears b); [|apply der_cst; reflexivity].
    apply (der_int sq (fun s q => sf n (G s q) q v d)). intros q Hq. apply (der_sf_G (fun s => G s q)). auto.
Qed.

(** *** second derivative *)
Definition wjj (S : sect) (q : qpt) (u us d v : dofs) : R :=
  if bends b then
    let h := dx n q d 1 * dx n q v 1 + dx n q d 2 * dx n q v 2 in
    let hd := dx n q d 1 * dx n q us 1 + dx n q d 2 * dx n q us 2 in
    let hv := dx n q us 1 * dx n q v 1 + dx n q us 2 * dx n q v 2 in
    sA S 0%nat 0%nat * (hv * dax n true b q u d + dax n true b q u v * hd)
    + (sB S 0%nat 0%nat * ky n b q v + sB S 0%nat 1%nat * kz n b q v) * hd
    + (sB S 0%nat 0%nat * ky n b q d + sB S 0%nat 1%nat * kz n b q d) * hv
    + (sA S 0%nat 0%nat * dax n true b q u us + sB S 0%nat 0%nat * ky n b q us + sB S 0%nat 1%nat * kz n b q us) * h
  else 0.
(** what the code adds: the wrong entry of B *)
Definition typo (S : sect) (q : qpt) (us d v : dofs) : R :=
  if bends b then (sB S 0%nat 1%nat - sB S 0%nat 0%nat) * dx n q us 1 * dx n q d 1 * ky n b q v else 0.
Ltac vms := cbn [sum vk_strain]; rewrite ?vm_lm; cbn [sum]; rewrite ?vm_direct, ?vm_vkv, ?vm_vkw, ?(vm_y n b FIT), ?(vm_z n b FIT), ?vm_sv, ?vm_sw, ?vm_zop; change (slope n) with (dx n).
Lemma jac_dot_qp_eq S u us j q d v : sA (S q) 0%nat 1%nat = 0 -> sA (S q) 1%nat 0%nat = 0 ->
  bil n (jac_dot_qp n b S u us j q) d v = bil n j d v + jxw q * (wjj (S q) q u us d v + typo (S q) q us d v).
Proof.
  intros H1 H2. unfold jac_dot_qp, wjj, typo, dax.
  destruct (bends b) eqn:Eb; cbv zeta; cbn [andb]; rewrite ?bil_plusj, ?bil_rmt; vms; unfold ky, kz; rewrite ?H1, ?H2; try (field; fail).
Qed.
Lemma fold_jd S u us qs j d v : (forall q, In q qs -> sA (S q) 0%nat 1%nat = 0 /\ sA (S q) 1%nat 0%nat = 0) ->
  bil n (fold_left (jac_dot_qp n b S u us) qs j) d v = bil n j d v + integral qs (fun q => wjj (S q) q u us d v + typo (S q) q us d v).
Proof.
  revert j. induction qs as [|q qs IH]; intros j H; cbn [fold_left].
  - rewrite integral_nil. ring.
  - destruct (H q (or_introl eq_refl)). rewrite IH, jac_dot_qp_eq, integral_cons by (auto; intros; apply H; now right). ring.
Qed.
Lemma jac_dot_f S U Us qs j d v : (forall q, In q qs -> sA (S q) 0%nat 1%nat = 0 /\ sA (S q) 1%nat 0%nat = 0) ->
  bil n (jac_dot_state_sensitivity n vk b t qs S U Us j) d v = bil n j d v +
   (if vk then integral qs (fun q => wjj (S q) q (to_local t U) (to_local t Us) (to_local t d) (to_local t v) + typo (S q) q (to_local t Us) (to_local t d) (to_local t v)) else 0).
Proof.
  intros H. unfold jac_dot_state_sensitivity. destruct vk; [|ring]. rewrite bil_plusj, bil_global, fold_jd, bil_zj by auto. ring.
Qed.
Lemma der_wj (u : R -> dofs) du t0 S q d v : history6 n t0 u du -> sA S 0%nat 1%nat = 0 ->
  is_derive (fun s => wj n vk b S q (u s) d v) t0 (if vk then wjj S q (u t0) du d v else 0).
Proof.
  intros HU H1. pose proof (der_dax n vk b u du t0 HU q) as DD. pose proof (der_force n vk b FIT u du t0 HU S q) as DF.
  unfold wj, wjj. destruct vk; cbn [andb] in *.
  - destruct (bends b) eqn:Eb.
    + eapply der_eq; [dd ltac:(idtac; lazymatch goal with |- is_derive (fun s => dax _ _ _ _ (@?x s) ?e) _ _ => apply (DD e) | |- _ => exact DF end)|]. cbv beta. rewrite H1. unfold dax. rewrite Eb. cbn [andb]. ring.
    + eapply der_eq; [dd ltac:(idtac; lazymatch goal with |- is_derive (fun s => dax _ _ _ _ (@?x s) ?e) _ _ => apply (DD e) | |- _ => exact DF end)|]. cbv beta. ring.
  - eapply der_eq; [dd ltac:(idtac; lazymatch goal with |- is_derive (fun s => dax _ _ _ _ (@?x s) ?e) _ _ => apply (DD e) | |- _ => exact DF end)|]. cbv beta. ring.
Qed.
Lemma der_WJ (u : R -> dofs) du t0 qs sq S G d v : history6 n t0 u du -> (forall q, In q qs -> sA (S q) 0%nat 1%nat = 0 /\ sA (S q) 1%nat 0%nat = 0) ->
  is_derive (fun s => WJ n vk b qs sq S G (u s) d v) t0 (if vk then integral qs (fun q => wjj (S q) q (u t0) du d v) else 0).
Proof.
  intros HU HS. unfold WJ. eapply der_add with (dg := 0).
  - apply (der_int qs (fun s q => wj n vk b (S q) q (u s) d v)). intros q Hq. apply (der_wj u du); auto. now apply HS.
  - apply der_cst. reflexivity.
  - destruct vk; [ring|]. rewrite integral_0; [ring|auto].
Qed.

(** *** given resultants *)
Definition rf (vA vB : qpt -> nat -> R) (q : qpt) (u d : dofs) : R :=
  vA q 0%nat * dax n vk b q u d + vA q 1%nat * twist n q d + (if bends b then vB q 0%nat * (ky n b q d + kz n b q d) else 0).
Definition rj (M : qpt -> nat -> nat -> R) (q : qpt) (d v : dofs) : R :=
  if bends b && vk then M q 0%nat 0%nat * (dx n q d 1 * dx n q v 1 + dx n q d 2 * dx n q v 2) else 0.
Lemma resultant_qp_f vA vB M u req f j q d :
  dot6 n (fst (resultant_qp n vk b vA vB M u req (f, j) q)) d = dot6 n f d + jxw q * rf vA vB q u d.
Proof.
  unfold resultant_qp, rf, dax, twist. destruct (bends b) eqn:Eb; destruct vk; cbv zeta; cbn [fst andb];
  rewrite ?dot_plusf, ?dot_vmt; vms; unfold ky, kz; ring.
Qed.
Lemma resultant_qp_j vA vB M u f j q d v :
  bil n (snd (resultant_qp n vk b vA vB M u true (f, j) q)) d v = bil n j d v + jxw q * rj M q d v.
Proof.
  unfold resultant_qp, rj. destruct (bends b) eqn:Eb; destruct vk; cbv zeta; cbn [snd andb];
  rewrite ?bil_plusj, ?bil_rmt; vms; unfold ky, kz; ring.
Qed.
Lemma resultant_f vA vB M u req qs d : dot6 n (fst (resultant n vk b qs vA vB M u req)) d = integral qs (fun q => rf vA vB q u d).
Proof.
  unfold resultant. assert (G : forall fj, dot6 n (fst (fold_left (resultant_qp n vk b vA vB M u req) qs fj)) d = dot6 n (fst fj) d + integral qs (fun q => rf vA vB q u d)).
  { induction qs as [|q qs IH]; intros [f j]; cbn [fold_left fst]; [rewrite integral_nil; ring|]. rewrite IH, resultant_qp_f, integral_cons. ring. }
  rewrite G. cbn [fst]. rewrite dot_zf. ring.
Qed.
Lemma resultant_j vA vB M u qs d v : bil n (snd (resultant n vk b qs vA vB M u true)) d v = integral qs (fun q => rj M q d v).
Proof.
  unfold resultant. assert (G : forall fj, bil n (snd (fold_left (resultant_qp n vk b vA vB M u true) qs fj)) d v = bil n (snd fj) d v + integral qs (fun q => rj M q d v)).
  { induction qs as [|q qs IH]; intros [f j]; cbn [fold_left snd]; [rewrite integral_nil; ring|]. rewrite IH, resultant_qp_j, integral_cons. ring. }
  rewrite G. cbn [snd]. rewrite bil_zj. ring.
Qed.
Lemma der_rf (u : R -> dofs) du t0 vA vB q d : history6 n t0 u du ->
  is_derive (fun s => rf vA vB q (u s) d) t0 (rj (fun q => mat00 (vA q 0%nat)) q d du).
Proof.
  intros HU. unfold rf, rj. pose proof (der_dax n vk b u du t0 HU q) as DD. eapply der_eq; [dd ltac:(idtac; lazymatch goal with |- is_derive (fun s => dax _ _ _ _ (@?x s) ?e) _ _ => apply (DD e) end)|]. cbv beta.
  rewrite (andb_comm vk). destruct (bends b && vk)%bool; cbn [mat00]; ring.
Qed.
End B.
