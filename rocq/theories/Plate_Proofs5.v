From Coq Require Import Reals Lra.
From Coquelicot Require Import Coquelicot.
From Coq Require Import List Arith Bool Lia.
From Verif Require Import Base BaseLemmas Sens_Spec Sens_Proofs Sens_Proofs2 Heat_Proofs Solid_Model Solid_Spec Solid_Proofs2 Dof6_Model Dof6_Proofs Beam_Spec Beam_Proofs Beam_Proofs2 Beam_Props Beam_Props2 Plate_Model Plate_Spec Plate_Proofs Plate_Proofs2 Plate_Proofs3 Plate_Proofs4.
Import ListNotations.
Open Scope R_scope.

Section B.
Variable n : nat.
Variable nl : bool.
Variable b : plate.
Hypothesis FIT : pfits b n.
Variable t : frame.
Notation g := (grad n).
Notation kap := (curvature b n).
Notation Nf := (Nf n nl b).
Notation wf := (wf n nl b).
Notation wj := (wj n nl b).
Notation miss := (miss n nl b).
Notation dlin := (dlin n).
Notation sym2 := (sym2 n).
Notation dgl := (dgl n nl).
Notation dvk := (dvk n nl b).
Notation deps := (deps n nl b).
Notation eps := (eps n nl b).
Notation WF := (WF n nl b).
Notation WJ := (WJ n nl b).
Notation MISS := (MISS n nl b).

Lemma residual_f qs sq S G U req f j d :
  dot6 n (fst (internal_residual n nl b t qs sq S G U req f j)) d = dot6 n f d + WF qs sq S G (to_local t U) (to_local t d).
Proof. unfold internal_residual. cbn [fst]. rewrite dot_plusf, dot_global, local_f by auto. ring. Qed.

(** *** the rotation about the normal *)
Definition dmat5 (x : nat -> R) : dmat := fun c a d e => if (Nat.eqb c 5 && Nat.eqb d 5 && Nat.eqb a e)%bool then x a else 0.
Lemma bil_dmat5 x d v : bil n (dmat5 x) d v = sum n (fun a => x a * d 5%nat a * v 5%nat a).
Proof.
  unfold bil, dot6. rewrite (sum_single 6 5); [|lia|].
  - apply sum_ext. intros a Ha. unfold times6, dmat5.
    rewrite (sum_single 6 5); [|lia|intros c _ Hc; apply sum_0; intros e _; destruct (Nat.eqb_spec c 5); [contradiction|]; rewrite andb_false_r; cbn [andb]; ring].
    rewrite (sum_single n a); [|auto|intros e _ He; destruct (Nat.eqb_spec a e); [congruence|]; rewrite andb_false_r; ring].
    rewrite !Nat.eqb_refl. cbn [andb]. ring.
  - intros c _ Hc. apply sum_0. intros a _. unfold times6, dmat5.
    rewrite (sum_0 6); [ring|]. intros; apply sum_0; intros; destruct (Nat.eqb_spec c 5); [contradiction|]; cbn [andb]; ring.
Qed.
Lemma bil_ext (j j' : dmat) d v : (forall c a e h, j c a e h = j' c a e h) -> bil n j d v = bil n j' d v.
Proof.
  intros H. unfold bil. apply dot_ext. intros c a _ _. split; [|reflexivity]. unfold times6. apply sum_ext. intros e _. apply sum_ext. intros h _. now rewrite H.
Qed.
Lemma bil_drilling j d v : bil n (drilling j) d v = bil n j d v + sum n (fun a => (1 / 10 ^ 8 - j 5%nat a 5%nat a) * d 5%nat a * v 5%nat a).
Proof.
  rewrite <- (bil_dmat5 (fun a => 1 / 10 ^ 8 - j 5%nat a 5%nat a)). rewrite <- (Rmult_1_l (bil n (dmat5 _) d v)), <- bil_plusj. apply bil_ext.
  intros c a e h. unfold drilling, plusj, dmat5. destruct (Nat.eqb_spec c 5), (Nat.eqb_spec e 5), (Nat.eqb_spec a h); cbn [andb]; subst; ring.
Qed.
Lemma grad5 q a c i : (c < 5)%nat -> g q (unit_dof 5 a) c i = 0.
Proof. intros Hc. unfold grad. apply sum_0. intros e _. unfold unit_dof. destruct (Nat.eqb_spec 5 c); [lia|]. cbn [andb]. ring. Qed.
Lemma unit5 a c e : (c < 5)%nat -> unit_dof 5 a c e = 0.
Proof. intros Hc. unfold unit_dof. destruct (Nat.eqb_spec 5 c); [lia|]. reflexivity. Qed.
Lemma beta5 a e k : node_beta (unit_dof 5 a) e k = 0.
Proof. unfold node_beta. destruct k; rewrite unit5 by lia; ring. Qed.
Lemma mid5 P i j a k : mid_beta P i j (unit_dof 5 a) k = 0.
Proof. unfold mid_beta. rewrite !beta5, !unit5 by lia. unfold Rdiv. ring. Qed.
Lemma bgrad5 q a k i : beta_grad b n q (unit_dof 5 a) k i = 0.
Proof.
  destruct b as [| |P d6]; cbn [beta_grad]; [reflexivity| |].
  - apply sum_0. intros e _. rewrite beta5. ring.
  - apply sum_0. intros m _. unfold dkt_beta. do 6 (destruct m as [|m]; [rewrite ?beta5, ?mid5; ring|]). rewrite mid5. ring.
Qed.
Lemma kap5 q a r : kap q (unit_dof 5 a) r = 0.
Proof. unfold curvature. rewrite !bgrad5. destruct r as [|[|r]]; ring. Qed.
Lemma gam5 q a i : pgamma n q (unit_dof 5 a) i = 0.
Proof. unfold pgamma. rewrite grad5 by lia. rewrite sum_0; [ring|]. intros e _. rewrite beta5. ring. Qed.
Lemma sym5 q a u c r : (c < 5)%nat -> sym2 q u (unit_dof 5 a) c r = 0.
Proof. intros Hc. unfold Plate_Proofs2.sym2. rewrite !grad5 by auto. destruct r as [|[|r]]; ring. Qed.
Lemma deps5 q a u r : deps q u (unit_dof 5 a) r = 0.
Proof. unfold Plate_Proofs2.deps, Plate_Proofs2.dgl, Plate_Proofs2.dvk, Plate_Proofs2.dlin, flag. rewrite !sym5, !grad5 by lia. destruct nl, (pbends b), r as [|[|r]]; cbn [andb]; ring. Qed.
Lemma dgl5 q a u r : dgl q u (unit_dof 5 a) r = 0.
Proof. unfold Plate_Proofs2.dgl, flag. rewrite !sym5 by lia. destruct nl; ring. Qed.
Lemma dvk5 q a u r : dvk q u (unit_dof 5 a) r = 0.
Proof. unfold Plate_Proofs2.dvk, flag. rewrite !sym5 by lia. destruct nl, (pbends b); cbn [andb]; ring. Qed.
Lemma local_55 qs sq S G u a : (a < n)%nat -> snd (local_internal n nl b qs sq S G u true) 5%nat a 5%nat a = 0.
Proof.
  intros Ha. rewrite (entry n _ 5 a 5 a) by (auto; lia). rewrite local_j by auto. unfold Plate_Proofs3.WJ, Plate_Proofs3.MISS.
  rewrite (integral_0 qs (fun q => wj _ _ _ _ _)), (integral_0 qs (fun q => miss _ _ _ _ _)).
  - destruct (pshears b); [|ring]. rewrite integral_0; [ring|]. intros q _. unfold sf. cbn [sum]. rewrite !gam5. ring.
  - intros q _. unfold Plate_Proofs3.miss. cbn [sum]. rewrite !dgl5, !dvk5. ring.
  - intros q _. unfold Plate_Proofs3.wj. cbn [sum]. rewrite !deps5, !kap5, !dgl5, !dvk5. ring.
Qed.
Lemma residual_j qs sq S G U f j d v :
  bil n (snd (internal_residual n nl b t qs sq S G U true f j)) d v =
  bil n j d v + (WJ qs sq S G (to_local t U) (to_local t d) (to_local t v) - MISS qs S (to_local t U) (to_local t d) (to_local t v)) + drill n t d v.
Proof.
  unfold internal_residual. cbn [snd]. rewrite bil_plusj, bil_global, bil_drilling, local_j by auto.
  unfold drill. rewrite <- sum_scal_l. rewrite Rmult_1_l, !Rplus_assoc. do 2 f_equal.
  apply sum_ext. intros a Ha. rewrite local_55, !in_axes_eq by auto. ring.
Qed.
(** *** dependence on the section *)
Ltac mder HS := idtac; lazymatch goal with
  | |- is_derive (fun s => pA (@?x s) ?i ?l) _ _ => apply (proj1 HS i l); lia
  | |- is_derive (fun s => pB (@?x s) ?i ?l) _ _ => apply (proj1 (proj2 HS) i l); lia
  | |- is_derive (fun s => pD (@?x s) ?i ?l) _ _ => apply (proj2 (proj2 HS) i l); lia end.
Lemma der_wf_S (S : R -> psect) S' t0 q u d : psect_der S S' t0 -> is_derive (fun s => wf (S s) q u d) t0 (wf S' q u d).
Proof.
  intros H. unfold Plate_Proofs2.wf, Plate_Proofs2.Nf. cbn [sum]. eapply der_eq; [dd ltac:(mder H)|]. cbv beta. ring.
Qed.
Lemma der_wj_S (S : R -> psect) S' t0 q u d v : psect_der S S' t0 -> is_derive (fun s => wj (S s) q u d v - miss (S s) q u d v) t0 (wj S' q u d v - miss S' q u d v).
Proof.
  intros H. apply (der_fun (fun s => wj (S s) q u d v + (-1) * miss (S s) q u d v)); [intros; ring|].
  unfold Plate_Proofs3.wj, Plate_Proofs3.miss, Plate_Proofs2.Nf. cbn [sum]. eapply der_eq; [dd ltac:(mder H)|]. cbv beta. ring.
Qed.
Lemma der_sf_G (G : R -> nat -> nat -> R) G' t0 q u d : mat_der 2 G G' t0 -> is_derive (fun s => sf n (G s) q u d) t0 (sf n G' q u d).
Proof. intros H. unfold sf. cbn [sum]. eapply der_eq; [dd ltac:(idtac; apply H; lia)|]. cbv beta. ring. Qed.
Lemma der_WF_S qs sq (S : R -> qpt -> psect) S' (G : R -> qpt -> nat -> nat -> R) G' t0 u d :
  (forall q, In q qs -> psect_der (fun s => S s q) (S' q) t0) -> (forall q, In q sq -> mat_der 2 (fun s => G s q) (G' q) t0) ->
  is_derive (fun s => WF qs sq (S s) (G s) u d) t0 (WF qs sq S' G' u d).
Proof.
  intros HS HG. unfold Plate_Proofs3.WF. eapply der_add; [| |reflexivity].
  - apply (der_int qs (fun s q => wf (S s q) q u d)). intros q Hq. apply (der_wf_S (fun s => S s q)). auto.
  - destruct (pshears b); [|apply der_cst; reflexivity].
    apply (der_int sq (fun s q => sf n (G s q) q u d)). intros q Hq. apply (der_sf_G (fun s => G s q)). auto.
Qed.
Lemma der_WJ_S qs sq (S : R -> qpt -> psect) S' (G : R -> qpt -> nat -> nat -> R) G' t0 u d v :
  (forall q, In q qs -> psect_der (fun s => S s q) (S' q) t0) -> (forall q, In q sq -> mat_der 2 (fun s => G s q) (G' q) t0) ->
  is_derive (fun s => WJ qs sq (S s) (G s) u d v - MISS qs (S s) u d v) t0 (WJ qs sq S' G' u d v - MISS qs S' u d v).
Proof.
  intros HS HG. unfold Plate_Proofs3.WJ, Plate_Proofs3.MISS.
  apply (der_fun (fun s => integral qs (fun q => wj (S s q) q u d v - miss (S s q) q u d v) + (if pshears b then integral sq (fun q => sf n (G s q) q v d) else 0))); [intros s; rewrite int_minus; ring|].
  assert (D1 : is_derive (fun s => integral qs (fun q => wj (S s q) q u d v - miss (S s q) q u d v)) t0 (integral qs (fun q => wj (S' q) q u d v - miss (S' q) q u d v))).
  { apply (der_int qs (fun s q => wj (S s q) q u d v - miss (S s q) q u d v)). intros q Hq. apply (der_wj_S (fun s => S s q)). auto. }
  assert (D2 : is_derive (fun s => if pshears b then integral sq (fun q => sf n (G s q) q v d) else 0) t0 (if pshears b then integral sq (fun q => sf n (G' q) q v d) else 0)).
  { destruct (pshears b); [|apply (der_const 0)].
    apply (der_int sq (fun s q => sf n (G s q) q v d)). intros q Hq. apply (der_sf_G (fun s => G s q)). auto. }
  eapply der_eq; [apply (der_plus _ _ _ _ _ D1 D2)|]. rewrite int_minus. destruct (pshears b); lra.
Qed.

(** *** the derivative of the Jacobian *)
Definition jd (S : psect) (q : qpt) (u us d v : dofs) : R :=
  let de := fun e r => dlin q e r + dvk q u e r in
  sum 3 (fun r => sum 3 (fun l => pA S r l * dvk q us v l) * de d r)
  + sum 3 (fun r => (sum 3 (fun l => pA S r l * de v l) + sum 3 (fun l => pB S r l * kap q v l)) * dvk q us d r)
  + sum 3 (fun r => (sum 3 (fun l => pA S r l * de us l) + sum 3 (fun l => pB S r l * kap q us l)) * dvk q v d r)
  + sum 3 (fun r => kap q d r * sum 3 (fun l => pB S l r * dvk q us v l)).
Ltac vms := cbn [sum]; rewrite ?vm_mm, ?vm_lm; cbn [sum]; rewrite ?vm_mm, ?vm_lm; cbn [sum]; rewrite ?vm_lm; cbn [sum]; rewrite ?vm_lin, ?vm_x, ?vm_y, ?vm_u, ?vm_v, ?vm_vk, ?(vm_bend n b FIT), ?vm_shear, ?vm_zop; cbn [Nat.ltb Nat.leb]; unfold mtr; rewrite ?vk_mat_eq; rewrite ?mat_x_eq, ?mat_y_eq by lia; unfold flag.
Lemma jac_dot_qp_eq S u us j q d v : nl = true ->
  bil n (jac_dot_qp n b S u us j q) d v = bil n j d v + jxw q * jd (S q) q u us d v.
Proof.
  intros En. unfold jac_dot_qp, jd, Plate_Proofs2.dlin, Plate_Proofs2.dvk, Plate_Proofs2.sym2. rewrite En.
  destruct (pbends b) eqn:Eb; cbv zeta; cbn [andb flag]; rewrite ?bil_plusj, ?bil_rmt; unfold vplus, mv, sigma; vms; rewrite ?(no_k n b FIT Eb); ring.
Qed.
Lemma jac_dot_f S U Us qs j d v :
  bil n (jac_dot_state_sensitivity n nl b t qs S U Us j) d v = bil n j d v + flag nl (integral qs (fun q => jd (S q) q (to_local t U) (to_local t Us) (to_local t d) (to_local t v))).
Proof.
  unfold jac_dot_state_sensitivity. destruct nl eqn:En; [|cbn [flag]; ring]. rewrite bil_plusj, bil_global.
  assert (G : forall l j0, bil n (fold_left (jac_dot_qp n b S (to_local t U) (to_local t Us)) l j0) (to_local t d) (to_local t v)
    = bil n j0 (to_local t d) (to_local t v) + integral l (fun q => jd (S q) q (to_local t U) (to_local t Us) (to_local t d) (to_local t v))).
  { induction l as [|q l IH]; intros j0; cbn [fold_left]; [rewrite integral_nil; ring|]. rewrite IH, jac_dot_qp_eq, integral_cons by auto. ring. }
  rewrite G, bil_zj. unfold flag. ring.
Qed.

(** *** given resultants *)
Definition rf (x : bool) (vA vB : qpt -> nat -> R) (q : qpt) (u d : dofs) : R :=
  sum 3 (fun r => vA q r * (dlin q d r + flag x (dgl q u d r) + dvk q u d r)) + sum 3 (fun r => vB q r * kap q d r).
Lemma prestress_qp_f PA PB u req f j q d :
  dot6 n (fst (prestress_qp n nl b PA PB u req (f, j) q)) d = dot6 n f d + jxw q * rf false (fun q => pvec (PA q)) (fun q => pvec (PB q)) q u d.
Proof.
  unfold prestress_qp, rf, Plate_Proofs2.dlin, Plate_Proofs2.dvk, Plate_Proofs2.sym2. destruct (pbends b) eqn:Eb; destruct nl eqn:En; cbv zeta; cbn [fst andb flag];
  rewrite ?dot_plusf, ?dot_vmt; unfold mv; vms; rewrite ?(no_k n b FIT Eb); ring.
Qed.
Definition rjp (M : qpt -> nat -> nat -> R) (q : qpt) (d v : dofs) : R :=
  flag (nl && pbends b) (sum 2 (fun i => sum 2 (fun l => g q d 2 i * (M q i l * g q v 2 l)))).
Lemma prestress_qp_j PA PB u f j q d v :
  bil n (snd (prestress_qp n nl b PA PB u true (f, j) q)) d v = bil n j d v + jxw q * rjp PA q d v.
Proof.
  unfold prestress_qp, rjp. destruct (pbends b) eqn:Eb; destruct nl eqn:En; cbv zeta; cbn [snd andb flag];
  rewrite ?bil_plusj, ?bil_rmt; vms; ring.
Qed.
Lemma prestress_f on qs PA PB U req f j d :
  dot6 n (fst (prestress_residual n nl b t on qs PA PB U req f j)) d =
  dot6 n f d + flag on (integral qs (fun q => rf false (fun q => pvec (PA q)) (fun q => pvec (PB q)) q (to_local t U) (to_local t d))).
Proof.
  unfold prestress_residual. destruct on; cbn [fst flag]; [|ring]. rewrite dot_plusf, dot_global.
  assert (G : forall l fj, dot6 n (fst (fold_left (prestress_qp n nl b PA PB (to_local t U) req) l fj)) (to_local t d) = dot6 n (fst fj) (to_local t d)
     + integral l (fun q => rf false (fun q => pvec (PA q)) (fun q => pvec (PB q)) q (to_local t U) (to_local t d))).
  { induction l as [|q l IH]; intros [f0 j0]; cbn [fold_left fst]; [rewrite integral_nil; ring|]. rewrite IH, prestress_qp_f, integral_cons. ring. }
  rewrite G. cbn [fst]. rewrite dot_zf. ring.
Qed.
Lemma prestress_j on qs PA PB U f j d v :
  bil n (snd (prestress_residual n nl b t on qs PA PB U true f j)) d v =
  bil n j d v + flag on (integral qs (fun q => rjp PA q (to_local t d) (to_local t v))).
Proof.
  unfold prestress_residual. destruct on; cbn [snd flag]; [|ring]. cbn [andb].
  assert (G : forall l fj, bil n (snd (fold_left (prestress_qp n nl b PA PB (to_local t U) true) l fj)) (to_local t d) (to_local t v) = bil n (snd fj) (to_local t d) (to_local t v)
     + integral l (fun q => rjp PA q (to_local t d) (to_local t v))).
  { induction l as [|q l IH]; intros [f0 j0]; cbn [fold_left snd]; [rewrite integral_nil; ring|]. rewrite IH, prestress_qp_j, integral_cons. ring. }
  destruct nl eqn:E.
  - rewrite bil_plusj, bil_global. rewrite G. cbn [snd]. rewrite bil_zj. ring.
  - rewrite integral_0; [ring|]. intros; unfold rjp; now rewrite E.
Qed.
Lemma thermal_qp_f vA vB u req f j q d :
  dot6 n (fst (thermal_qp n nl b vA vB u req (f, j) q)) d = dot6 n f d + jxw q * rf true vA vB q u d.
Proof.
  unfold thermal_qp, rf, Plate_Proofs2.dlin, Plate_Proofs2.dvk, Plate_Proofs2.dgl, Plate_Proofs2.sym2. destruct (pbends b) eqn:Eb; destruct nl eqn:En; cbv zeta; cbn [fst andb flag];
  rewrite ?dot_plusf, ?dot_vmt; unfold mv; vms; rewrite ?(no_k n b FIT Eb); ring.
Qed.
Definition rjt (vA : qpt -> nat -> R) (q : qpt) (d v : dofs) : R := sum 3 (fun r => vA q r * (dgl q v d r + dvk q v d r)).
Lemma thermal_qp_j vA vB u f j q d v :
  bil n (snd (thermal_qp n nl b vA vB u true (f, j) q)) d v = bil n j d v + jxw q * rjt vA q d v.
Proof.
  unfold thermal_qp, rjt, Plate_Proofs2.dvk, Plate_Proofs2.dgl, Plate_Proofs2.sym2. destruct (pbends b) eqn:Eb; destruct nl eqn:En; cbv zeta; cbn [snd andb flag];
  rewrite ?bil_plusj, ?bil_rmt; unfold sigma; vms; ring.
Qed.
Lemma thermal_sum_f vA vB u req qs d : dot6 n (fst (thermal n nl b qs vA vB u req)) d = integral qs (fun q => rf true vA vB q u d).
Proof.
  unfold thermal. assert (G : forall fj, dot6 n (fst (fold_left (thermal_qp n nl b vA vB u req) qs fj)) d = dot6 n (fst fj) d + integral qs (fun q => rf true vA vB q u d)).
  { induction qs as [|q qs IH]; intros [f j]; cbn [fold_left fst]; [rewrite integral_nil; ring|]. rewrite IH, thermal_qp_f, integral_cons. ring. }
  rewrite G. cbn [fst]. rewrite dot_zf. ring.
Qed.
Lemma thermal_sum_j vA vB u qs d v : bil n (snd (thermal n nl b qs vA vB u true)) d v = integral qs (fun q => rjt vA q d v).
Proof.
  unfold thermal. assert (G : forall fj, bil n (snd (fold_left (thermal_qp n nl b vA vB u true) qs fj)) d v = bil n (snd fj) d v + integral qs (fun q => rjt vA q d v)).
  { induction qs as [|q qs IH]; intros [f j]; cbn [fold_left snd]; [rewrite integral_nil; ring|]. rewrite IH, thermal_qp_j, integral_cons. ring. }
  rewrite G. cbn [snd]. rewrite bil_zj. ring.
Qed.
Lemma rjt_lin vA q d v : nl = false -> rjt vA q d v = 0.
Proof. intros E. unfold rjt, Plate_Proofs2.dgl, Plate_Proofs2.dvk. rewrite E. cbn [sum andb flag]. ring. Qed.
Lemma thermal_f sc qs EA EB dt U req f j d :
  dot6 n (fst (thermal_residual n nl b t sc qs EA EB dt U req f j)) d =
  dot6 n f d - integral qs (fun q => rf true (fun q r => EA q r * dt q) (fun q r => EB q r * dt q) q (to_local t U) (to_local t d)).
Proof. unfold thermal_residual. cbn [fst]. rewrite dot_plusf, dot_global, thermal_sum_f by auto. ring. Qed.
Lemma thermal_j sc qs EA EB dt U f j d v :
  bil n (snd (thermal_residual n nl b t sc qs EA EB dt U true f j)) d v =
  bil n j d v - match sc with Some x => x | None => 1 end * integral qs (fun q => rjt (fun q r => EA q r * dt q) q (to_local t d) (to_local t v)).
Proof.
  unfold thermal_residual. cbn [snd andb]. destruct nl eqn:E.
  - rewrite bil_plusj, bil_global. pose proof thermal_sum_j as H. rewrite E in H. rewrite H. destruct sc; ring.
  - rewrite integral_0; [destruct sc; ring|]. intros q _. now apply rjt_lin.
Qed.
Lemma thermal_sens_f qs EA EB EA' EB' dt dt' U req f j d :
  dot6 n (fst (thermal_residual_sensitivity n nl b t qs EA EB EA' EB' dt dt' U req f j)) d =
  dot6 n f d - integral qs (fun q => rf true (fun q r => EA q r * dt' q + EA' q r * dt q) (fun q r => EB q r * dt' q + EB' q r * dt q) q (to_local t U) (to_local t d)).
Proof. unfold thermal_residual_sensitivity. cbn [fst]. rewrite dot_plusf, dot_global, thermal_sum_f by auto. ring. Qed.
Lemma thermal_sens_j qs EA EB EA' EB' dt dt' U f j d v :
  bil n (snd (thermal_residual_sensitivity n nl b t qs EA EB EA' EB' dt dt' U true f j)) d v =
  bil n j d v - integral qs (fun q => rjt (fun q r => EA q r * dt' q + EA' q r * dt q) q (to_local t d) (to_local t v)).
Proof.
  unfold thermal_residual_sensitivity. cbn [snd andb]. destruct nl eqn:E.
  - rewrite bil_plusj, bil_global. pose proof thermal_sum_j as H. rewrite E in H. rewrite H. ring.
  - rewrite integral_0; [ring|]. intros q _. now apply rjt_lin.
Qed.
Lemma der_work (x : bool) (u : R -> dofs) du t0 qs N M : history6 n t0 u du ->
  is_derive (fun s => pwork (nl && x) (nl && pbends b) b n qs N M (u s)) t0 (integral qs (fun q => rf x N M q (u t0) du)).
Proof.
  intros HU. unfold pwork. apply (der_int qs (fun s q => sum 3 (fun r => N q r * membrane (nl && x) (nl && pbends b) n q (u s) r) + sum 3 (fun r => M q r * curvature b n q (u s) r))).
  intros q _. unfold rf. apply der_plus; apply der_sum; intros r Hr; apply der_scal.
  - unfold membrane, Plate_Proofs2.dlin, Plate_Proofs2.dgl, Plate_Proofs2.dvk, Plate_Proofs2.sym2.
    destruct nl, (pbends b), x; cbn [andb flag]; (destruct r as [|[|r]]; (eapply der_eq; [dd ltac:(idtac; lazymatch goal with |- is_derive (fun s => grad _ _ (@?x s) ?c ?i) _ _ => apply (der_g n _ _ _ HU _ c i); lia end)|cbv beta; field])).
  - now apply der_kap.
Qed.
Lemma der_rf (x : bool) (u : R -> dofs) du t0 vA vB q d : history6 n t0 u du ->
  is_derive (fun s => rf x vA vB q (u s) d) t0 (sum 3 (fun r => vA q r * (flag x (dgl q du d r) + dvk q du d r))).
Proof.
  intros HU. unfold rf. cbn [sum]. pose proof (fun r => der_dgl n nl u du t0 HU q d r) as DG. pose proof (fun r => der_dvk n nl b u du t0 HU q d r) as DV.
  destruct x; cbn [flag]; (eapply der_eq; [dd ltac:(idtac; lazymatch goal with |- is_derive (fun s => Plate_Proofs2.dgl _ _ _ (@?x s) ?d ?r) _ _ => apply (DG r) | |- is_derive (fun s => Plate_Proofs2.dvk _ _ _ _ (@?x s) ?d ?r) _ _ => apply (DV r) end)|]; cbv beta; ring).
Qed.
Lemma der_rf_v (x : bool) (vA vB : R -> qpt -> nat -> R) (vA' vB' : qpt -> nat -> R) (t0 : R) q u d :
  vector_derivative 3 (fun s => vA s q) (vA' q) t0 -> vector_derivative 3 (fun s => vB s q) (vB' q) t0 ->
  is_derive (fun s => rf x (vA s) (vB s) q u d) t0 (rf x vA' vB' q u d).
Proof.
  intros HA HB. unfold rf. apply der_plus; apply der_sum; intros r Hr.
  - apply (der_ext (fun s => (dlin q d r + flag x (dgl q u d r) + dvk q u d r) * vA s q r) _ t0 ((dlin q d r + flag x (dgl q u d r) + dvk q u d r) * vA' q r)); [intros; ring|ring|]. apply der_scal. now apply HA.
  - apply (der_ext (fun s => kap q d r * vB s q r) _ t0 (kap q d r * vB' q r)); [intros; ring|ring|]. apply der_scal. now apply HB.
Qed.
Lemma der_rjt_v (vA : R -> qpt -> nat -> R) (vA' : qpt -> nat -> R) (t0 : R) q d v :
  vector_derivative 3 (fun s => vA s q) (vA' q) t0 -> is_derive (fun s => rjt (vA s) q d v) t0 (rjt vA' q d v).
Proof.
  intros HA. unfold rjt. apply der_sum; intros r Hr.
  apply (der_ext (fun s => (dgl q v d r + dvk q v d r) * vA s q r) _ t0 ((dgl q v d r + dvk q v d r) * vA' q r)); [intros; ring|ring|]. apply der_scal. now apply HA.
Qed.
Lemma der_rjp_v (M : R -> qpt -> nat -> nat -> R) M' (t0 : R) q d v : mat_der 2 (fun s => M s q) (M' q) t0 ->
  is_derive (fun s => rjp (M s) q d v) t0 (rjp M' q d v).
Proof.
  intros H. unfold rjp, flag. destruct (nl && pbends b)%bool; [|apply (der_const 0)]. cbn [sum].
  eapply der_eq; [dd ltac:(idtac; apply H; lia)|]. cbv beta. ring.
Qed.
End B.
