(** Theorems about the orientation of materials (C97, C98). *)
From Coquelicot Require Import Coquelicot.
From Coq Require Import List Arith Bool Reals Lra Lia.
From Verif Require Import Base BaseLemmas Mat_Model Mat_Spec Mat_Proofs Mat_Props Coor_Model Coor_Spec Coor_Proofs.
Import ListNotations.
Open Scope R_scope.

(** ** C97: turning the material turns its law *)
(** The stiffness the card computes from the matrix of any material is the one of the turned material. *)
Theorem C97_turned_matrix : forall C A, orthonormal A -> rows C = 6%nat -> cols C = 6%nat ->
  exists G, stiff C A = Ok G /\ rows G = 6%nat /\ cols G = 6%nat /\ turned_stiffness A C G /\ (elastic C 6 -> elastic G 6).
Proof.
  intros C A O Cr Cc. exists (mkMat 6 6 (SK A C)). split; [apply stiff_eq; auto; apply O|].
  split; [reflexivity|]. split; [reflexivity|]. split; [apply stiff_turned; auto|]. apply stiff_elastic; auto.
Qed.
Print Assumptions C97_turned_matrix.

(** Hooke's law of the orthotropic material, with the components along the material's axes. *)
Theorem C97_turned_stiffness : forall v A, admissible_ort v -> orthonormal A ->
  exists G, card_stiff v (Ok A) = Ok G /\ elastic G 6 /\
    forall e s e' s', local_strain A e e' -> local_stress A s s' -> (applies G 6 e s <-> hooke_ort v e' s').
Proof.
  intros v A Av O. destruct (C92_orthotropic_stiffness_partial v KStiff3 Av I) as (C & V & E & L); [discriminate|].
  cbn [size_of law_of] in *. pose proof E as (Cr & Cc & _).
  destruct (C97_turned_matrix C A O Cr Cc) as (G & S & _ & _ & Tn & El).
  exists G. unfold card_stiff. rewrite V. cbn [bind]. split; [exact S|]. split; [auto|].
  intros e s e' s' He Hs. rewrite (Tn e s e' s' He Hs). apply L.
Qed.
Print Assumptions C97_turned_stiffness.

Lemma card_therm_eq v A C a : orthonormal A -> val_ orthotropic KStiff3 v = Ok C -> val_ orthotropic (KExp 3) v = Ok a ->
  rows C = 6%nat -> cols C = 6%nat -> rows a = 6%nat -> cols a = 1%nat ->
  card_therm v (Ok A) = Ok (mkMat 6 1 (fun i j => sum 6 (fun b => sum 6 (fun c => TT A i c * ent C c b) * ent a b j))).
Proof.
  intros (Ar & Ac & _) V Va Cr Cc ar ac. unfold card_therm. rewrite V, Va. cbn [bind]. unfold therm. rewrite tmat_eq by auto. cbn [bind].
  apply mul3_eq'; auto.
Qed.
(** The same for a heated body. *)
Theorem C97_turned_heated : forall v A T, admissible_ort v -> orthonormal A ->
  exists G b, card_stiff v (Ok A) = Ok G /\ card_therm v (Ok A) = Ok b /\ rows b = 6%nat /\ cols b = 1%nat /\
    forall e s e' s', local_strain A e e' -> local_stress A s s' ->
      (card_stress G b T e s <-> heated (hooke_ort v) (free_ort v) T e' s').
Proof.
  intros v A T Av O.
  destruct (C92_orthotropic_stiffness_partial v KStiff3 Av I) as (C & V & (Cr & Cc & _) & _); [discriminate|]. cbn [size_of] in Cr, Cc.
  destruct (C96_heated_orthotropic_partial v KStiff3 T Av) as (C' & a & V' & Va & ar & ac & L); [cbn; auto|].
  rewrite V in V'. injection V' as <-. cbn [dim_of size_of law_of] in *.
  exists (mkMat 6 6 (SK A C)). eexists. split.
  { unfold card_stiff. rewrite V. apply stiff_eq; auto; apply O. }
  split; [apply card_therm_eq; eauto|]. split; [reflexivity|]. split; [reflexivity|].
  intros e s e' s' He Hs. rewrite <- L.
  pose proof (local_strain_T _ _ _ He) as Te. pose proof (local_stress_T _ _ _ O Hs) as Ts.
  unfold card_stress, heated_matrices. cbn [ent].
  assert (E : forall i, sum 6 (fun j => SK A C i j * e j) - sum 6 (fun b => sum 6 (fun c => TT A i c * ent C c b) * ent a b 0%nat) * T
    = sum 6 (fun c => TT A i c * (sum 6 (fun b => ent C c b * e' b) - sum 6 (fun b => ent C c b * ent a b 0%nat) * T))).
  { intros i. rewrite SK_apply.
    replace (sum 6 (fun b => sum 6 (fun c => TT A i c * ent C c b) * ent a b 0%nat)) with (sum 6 (fun c => TT A i c * sum 6 (fun b => ent C c b * ent a b 0%nat))).
    - replace (sum 6 (fun c => TT A i c * (sum 6 (fun b => ent C c b * e' b) - sum 6 (fun b => ent C c b * ent a b 0%nat) * T)))
        with (sum 6 (fun c => TT A i c * sum 6 (fun b => ent C c b * e' b)) + sum 6 (fun c => TT A i c * sum 6 (fun b => ent C c b * ent a b 0%nat)) * - T).
      + replace (sum 6 (fun a0 => TT A i a0 * sum 6 (fun b => ent C a0 b * sum 6 (fun j => TT A j b * e j)))) with (sum 6 (fun c => TT A i c * sum 6 (fun b => ent C c b * e' b))); [ring|].
        apply sum_ext; intros c _. f_equal. apply sum_ext; intros b Hb. rewrite (Te b Hb). reflexivity.
      + rewrite <- sum_scal_r, <- sum_plus. apply sum_ext; intros c _. ring.
    - transitivity (sum 6 (fun b => sum 6 (fun c => TT A i c * ent C c b * ent a b 0%nat))).
      + rewrite sum_swap. apply sum_ext; intros c _. rewrite <- sum_scal_l. apply sum_ext; intros b _. ring.
      + apply sum_ext; intros b _. rewrite <- sum_scal_r. reflexivity. }
  split.
  - intros H. apply (local_stress_unique A s); [exact Hs|]. apply T_local_stress; auto. intros i Hi. rewrite (H i Hi), E. reflexivity.
  - intros H i Hi. rewrite E, (Ts i Hi). apply sum_ext; intros c Hc. f_equal. auto.
Qed.
Print Assumptions C97_turned_heated.

(** The derivatives the card reports, when both the material's values and the orientation vary with the parameter. *)
Theorem C97_derivative : forall P t d A dA C, path_deriv P t d -> varies A t dA -> val_ orthotropic KStiff3 (at_ P t) = Ok C ->
  mat_deriv (fun s => card_stiff (at_ P s) (A s)) t (card_stiff_d (at_ P t) d (A t) dA) /\
  mat_deriv (fun s => card_therm (at_ P s) (A s)) t (card_therm_d (at_ P t) d (A t) dA).
Proof.
  intros P t d A dA C D VA VC.
  assert (O1 : offered KStiff3) by (exists (RStiffness 3 true); reflexivity).
  pose proof (C93_orthotropic_derivative_partial KStiff3 P t d C O1 ltac:(discriminate) D VC) as M.
  assert (Va : exists a, val_ orthotropic (KExp 3) (at_ P t) = Ok a).
  { cbn [val_ orthotropic ort_val]. unfold ort_exp. cbn [exp_rows seq map]. mkred. eexists; reflexivity. }
  destruct Va as (a0 & Va).
  assert (O2 : offered (KExp 3)) by (exists (RExpansion 3); reflexivity).
  pose proof (C93_orthotropic_derivative_partial (KExp 3) P t d a0 O2 ltac:(discriminate) D Va) as Me.
  destruct VA as (MA & mA & EA & rA & cA).
  assert (VA : varies A t dA) by (split; [exact MA|]; exists mA; auto).
  destruct (dTT_ok A t mA dA VA EA) as (DT & _ & _ & DA & LA).
  assert (EC : exists dC, der_ orthotropic KStiff3 (at_ P t) d = Ok dC) by (destruct M as (dC & EC & _); eauto). destruct EC as (dC & EC).
  pose proof (deriv_dv _ _ _ dC EC M) as (DC & LC).
  assert (Ee : exists de, der_ orthotropic (KExp 3) (at_ P t) d = Ok de) by (destruct Me as (de & Ee & _); eauto). destruct Ee as (de & Ee).
  pose proof (deriv_dv _ _ _ de Ee Me) as (De & Le).
  pose proof (locally_singleton _ _ LA) as (A1 & A2 & A3). pose proof (locally_singleton _ _ LC) as (C1 & C2 & C3). pose proof (locally_singleton _ _ Le) as (e1 & e2 & e3).
  cbv beta in *.
  assert (SC : rows dC = 6%nat /\ cols dC = 6%nat).
  { rewrite <- C2, <- C3. rewrite VC. cbn [matof]. clear - VC. cbn [val_ orthotropic ort_val] in VC. unfold ort_K3 in VC.
    apply guard_inv in VC. destruct VC as (_ & VC). revert VC. cbv zeta. unfold ort_block. mkred. intros VC. injection VC as <-. split; reflexivity. }
  assert (Se : rows de = 6%nat /\ cols de = 1%nat).
  { rewrite <- e2, <- e3. cbn [val_ orthotropic ort_val]. unfold ort_exp. cbn [exp_rows seq map]. mkred. split; reflexivity. }
  destruct SC as (rC & cC). destruct Se as (re & ce). rewrite rC, cC in *. rewrite re, ce in *.
  split.
  - eapply (dv_deriv _ _ 6 6 (fun s => SK (matof (A s)) (matof (val_ orthotropic KStiff3 (at_ P s))))).
    + generalize (filter_and _ _ LA LC). apply filter_imp. intros s ((a1 & a2 & a3) & (c1 & c2 & c3)). unfold card_stiff.
      rewrite c1, a1. cbn [bind matof]. apply stiff_eq; auto.
    + unfold SK. apply (dv_mul3 6 6 6 6 _ _ (fun s b j => TT (matof (A s)) j b) t _ _ (fun b j => dTT (matof (A t)) mA j b) DT DC). exact (dv_tr _ _ _ _ _ DT).
    + unfold card_stiff_d. rewrite C1, EC, A1, EA. cbn [bind matof]. unfold stiff_d. rewrite tmat_eq, tmat_sens_eq by auto. cbn [bind].
      rewrite !(mul3_eq' 6 6 6 6) by auto. cbn [bind]. rewrite add3_eq. reflexivity.
  - eapply (dv_deriv _ _ 6 1 (fun s i j => sum 6 (fun b => sum 6 (fun c => TT (matof (A s)) i c * ent (matof (val_ orthotropic KStiff3 (at_ P s))) c b) * ent (matof (val_ orthotropic (KExp 3) (at_ P s))) b j))).
    + generalize (filter_and _ _ (filter_and _ _ LA LC) Le). apply filter_imp. intros s (((a1 & a2 & a3) & (c1 & c2 & c3)) & (u1 & u2 & u3)). unfold card_therm.
      rewrite c1, u1, a1. cbn [bind matof]. unfold therm. rewrite tmat_eq by auto. cbn [bind]. apply mul3_eq'; auto.
    + exact (dv_mul3 6 6 6 1 _ _ _ t _ _ _ DT DC De).
    + unfold card_therm_d. rewrite C1, EC, e1, Ee, A1, EA. cbn [bind matof]. unfold therm_d. rewrite tmat_eq, tmat_sens_eq by auto. cbn [bind].
      rewrite !(mul3_eq' 6 6 6 1) by auto. cbn [bind]. rewrite add3_eq. reflexivity.
Qed.
Print Assumptions C97_derivative.

(** The polar orientation turns by the angle about the third axis, and reports its derivative. *)
Theorem C97_polar : forall theta, exists A, polar theta = Ok A /\ orthonormal A /\
  (forall k, (k < 3)%nat -> ent A k 0%nat = match k with 0%nat => cos theta | 1%nat => sin theta | _ => 0 end) /\
  (forall k, (k < 3)%nat -> ent A k 1%nat = match k with 0%nat => cos (theta + PI / 2) | 1%nat => sin (theta + PI / 2) | _ => 0 end) /\
  (forall k, (k < 3)%nat -> ent A k 2%nat = match k with 2%nat => 1 | _ => 0 end).
Proof.
  intros theta. unfold polar. mkred. eexists. split; [reflexivity|]. split; [split; [reflexivity|split; [reflexivity|]]|split; [|split]].
  - pose proof (sin2_cos2 theta) as Q. unfold Rsqr in Q. intros i j Hi Hj. ix3 i; ix3 j; cbn; lra.
  - intros k Hk. ix3 k; cbn; reflexivity.
  - intros k Hk. rewrite cos_plus, sin_plus, cos_PI2, sin_PI2. ix3 k; cbn; ring.
  - intros k Hk. ix3 k; cbn; reflexivity.
Qed.
Print Assumptions C97_polar.
Theorem C97_polar_derivative : forall (theta : R -> R) (t d : R), is_derive theta t d ->
  varies (fun s => polar (theta s)) t (polar_d (theta t) d).
Proof.
  intros theta t d D. split.
  - unfold polar_d. mkred. eexists. split; [reflexivity|]. split.
    + apply filter_forall. intros s. unfold polar. mkred. eexists. split; [reflexivity|]. split; reflexivity.
    + intros i j Hi Hj. cbn [rows cols] in *.
      assert (ex : ex_derive theta t) by (exists d; exact D). pose proof (is_derive_unique _ _ _ D) as U.
      ix3 i; ix3 j; unfold polar; mkred; cbn; auto_derive; auto; try (change (Derive (fun x => theta x) t) with (Derive theta t); rewrite U); ring.
  - unfold polar_d. mkred. eexists. split; [reflexivity|]. split; reflexivity.
Qed.
Print Assumptions C97_polar_derivative.

(** A material turned by an angle whose cosine is 3/5: hypotheses of the theorems are met, and turning matters. *)
Definition sample_ort : props := fun x =>
  match x with
  | E11_ => 4 | E22_ => 1 | E33_ => 1 | G12_ | G13_ | G23_ => 1 | nu12_ | nu23_ | nu31_ => 0
  | alpha11_ => 1 | alpha22_ => 2 | alpha33_ => 3 | k11_ => 1 | k22_ => 2 | k33_ => 1 | _ => 1
  end.
Definition sample_turn : mat R :=
  mkMat 3 3 (fun i j => match i, j with
    | 0%nat, 0%nat => 3 / 5 | 0%nat, 1%nat => - (4 / 5) | 1%nat, 0%nat => 4 / 5 | 1%nat, 1%nat => 3 / 5 | 2%nat, 2%nat => 1 | _, _ => 0 end).
Lemma sample_turn_ok : orthonormal sample_turn.
Proof. split; [reflexivity|]. split; [reflexivity|]. intros i j Hi Hj. ix3 i; ix3 j; cbn; lra. Qed.
Lemma sample_ort_ok : admissible_ort sample_ort.
Proof. unfold admissible_ort, sample_ort. repeat split; lra. Qed.
Example C97_turned_stiffness_example : exists G, card_stiff sample_ort (Ok sample_turn) = Ok G /\
  forall e s e' s', local_strain sample_turn e e' -> local_stress sample_turn s s' -> (applies G 6 e s <-> hooke_ort sample_ort e' s').
Proof. destruct (C97_turned_stiffness _ _ sample_ort_ok sample_turn_ok) as (G & S & _ & L). exists G; auto. Qed.
(** A unit stretch along the first global axis, seen along the material's axes. *)
Example C97_local_strain_example : local_strain sample_turn (fun i => match i with 0%nat => 1 | _ => 0 end)
  (fun i => match i with 0%nat => 9 / 25 | 1%nat => 16 / 25 | 3%nat => - (24 / 25) | _ => 0 end).
Proof. intros i j Hi Hj. unfold strain_tensor, along_axes. ix3 i; ix3 j; cbn; lra. Qed.
Example C97_local_stress_example : local_stress sample_turn (fun i => match i with 0%nat => 1 | _ => 0 end)
  (fun i => match i with 0%nat => 9 / 25 | 1%nat => 16 / 25 | 3%nat => - (12 / 25) | _ => 0 end).
Proof. intros i j Hi Hj. unfold stress_tensor, along_axes. ix3 i; ix3 j; cbn; lra. Qed.
Example C97_derivative_example :
  mat_deriv (fun s => card_stiff (at_ (fun x r => sample_ort x + r) s) (polar (2 * s))) 0
            (card_stiff_d (at_ (fun x r => sample_ort x + r) 0) (fun _ => 1) (polar (2 * 0)) (polar_d (2 * 0) 2)).
Proof.
  destruct (C92_orthotropic_stiffness_partial sample_ort KStiff3 sample_ort_ok I) as (C & V & _ & _); [discriminate|].
  apply (C97_derivative (fun x r => sample_ort x + r) 0 (fun _ => 1) (fun s => polar (2 * s)) (polar_d (2 * 0) 2) C).
  - intros x. auto_derive; [auto|]; cbv beta; lra.
  - apply (C97_polar_derivative (fun s => 2 * s)). auto_derive; [auto|]; cbv beta; lra.
  - rewrite <- V. f_equal. unfold at_. apply FunctionalExtensionality.functional_extensionality. intros x. ring.
Qed.

(** ** C98: turning the material turns its conduction *)
Lemma card_conduct_eq v A : rows A = 3%nat -> cols A = 3%nat -> exists K, val_ orthotropic (KCond 3) v = Ok K /\ rows K = 3%nat /\ cols K = 3%nat /\
  (forall g q, applies K 3 g q <-> fourier_ort v g q) /\
  card_conduct v (Ok A) = Ok (mkMat 3 3 (fun i j => sum 3 (fun b => sum 3 (fun a => ent A a i * ent K a b) * ent A b j))).
Proof.
  intros Ar Ac. cbn [val_ orthotropic ort_val]. unfold card_conduct; cbn [val_ orthotropic ort_val]. unfold ort_cond. cbn [seq map]. mkred. cbn [bind]. eexists. split; [reflexivity|].
  split; [reflexivity|]. split; [reflexivity|]. split.
  - intros g q. unfold applies, fourier_ort. cbn [rows cols ent sum]. split.
    + intros H. pose proof (H 0%nat ltac:(lia)) as H0. pose proof (H 1%nat ltac:(lia)) as H1. pose proof (H 2%nat ltac:(lia)) as H2. cbn in *. lra.
    + intros (H0 & H1 & H2) i Hi. ix3 i; cbn; lra.
  - unfold conduct. apply mul3_eq'; auto.
Qed.
(** The card turns the conductances the wrong way: with the material turned by an angle whose cosine is 3/5, conductances
    1 and 2 and a gradient along the first material axis, the flux of the card is not along that axis. *)
Theorem C98_conductance_refuted : exists v A G, orthonormal A /\ card_conduct v (Ok A) = Ok G /\
  exists g q g' q', local_vector A g g' /\ local_vector A q q' /\ fourier_ort v g' q' /\ ~ applies G 3 g q.
Proof.
  exists sample_ort, sample_turn. destruct (card_conduct_eq sample_ort sample_turn eq_refl eq_refl) as (K & V & _ & _ & L & E).
  eexists. split; [exact sample_turn_ok|]. split; [exact E|].
  set (ax := fun i => match i with 0%nat => 3 / 5 | 1%nat => 4 / 5 | _ => 0 end).
  set (e1 := fun i : nat => match i with 0%nat => 1 | _ => 0 end).
  exists ax, ax, e1, e1.
  assert (LV : local_vector sample_turn ax e1) by (intros i Hi; unfold ax, e1; ix3 i; cbn; lra).
  split; [exact LV|]. split; [exact LV|]. split; [unfold fourier_ort, e1; cbn; lra|].
  intros H. specialize (H 0%nat ltac:(lia)). cbn [ent sum] in H.
  assert (KE : forall i j, (i < 3)%nat -> (j < 3)%nat -> ent K i j = if Nat.eqb i j then match i with 1%nat => 2 | _ => 1 end else 0).
  { clear - V. cbn [val_ orthotropic ort_val] in V. unfold ort_cond in V. cbn [seq map] in V. revert V. mkred. intros V. injection V as <-.
    intros i j Hi Hj. ix3 i; ix3 j; cbn; lra. }
  rewrite !KE in H by lia. unfold ax in H. cbn in H. lra.
Qed.
Print Assumptions C98_conductance_refuted.
(** What the card computes is the law of the material turned the other way, by the transpose of the orientation. *)
Theorem C98_conductance_partial : forall v A, orthonormal A ->
  exists G, card_conduct v (Ok A) = Ok G /\ rows G = 3%nat /\ cols G = 3%nat /\
    (forall g q g' q', local_vector (tr A) g g' -> local_vector (tr A) q q' -> (applies G 3 g q <-> fourier_ort v g' q')) /\
    ((v k11_ = v k22_ /\ v k22_ = v k33_) \/ (forall i j, (i < 3)%nat -> (j < 3)%nat -> ent A i j = ent A j i) ->
      forall g q g' q', local_vector A g g' -> local_vector A q q' -> (applies G 3 g q <-> fourier_ort v g' q')).
Proof.
  intros v A O. pose proof O as (Ar & Ac & Oc). destruct (tr_ortho A O) as (_ & _ & Or).
  destruct (card_conduct_eq v A Ar Ac) as (K & V & Kr & Kc & L & E). eexists. split; [exact E|]. split; [reflexivity|]. split; [reflexivity|].
  assert (Q : forall g q g' q', local_vector (tr A) g g' -> local_vector (tr A) q q' ->
     (applies (mkMat 3 3 (fun i j => sum 3 (fun b => sum 3 (fun a => ent A a i * ent K a b) * ent A b j))) 3 g q <-> fourier_ort v g' q')).
  { intros g q g' q' Hg Hq. rewrite <- L. unfold applies. cbn [ent].
    assert (F : forall i, sum 3 (fun j => sum 3 (fun b => sum 3 (fun a => ent A a i * ent K a b) * ent A b j) * g j)
      = sum 3 (fun a => ent A a i * sum 3 (fun b => ent K a b * g' b))).
    { intros i. transitivity (sum 3 (fun a => ent A a i * sum 3 (fun b => ent K a b * sum 3 (fun j => ent A b j * g j)))).
      - cbn [sum]. ring.
      - apply sum_ext; intros a _. f_equal. apply sum_ext; intros b Hb. rewrite (Hg b Hb). reflexivity. }
    split.
    - intros H i Hi. rewrite (Hq i Hi).
      transitivity (sum 3 (fun k => ent A i k * sum 3 (fun a => ent A a k * sum 3 (fun b => ent K a b * g' b)))).
      { apply sum_ext; intros k Hk. cbn [tr ent]. rewrite (H k Hk), F. reflexivity. }
      transitivity (sum 3 (fun a => sum 3 (fun k => ent A i k * ent A a k) * sum 3 (fun b => ent K a b * g' b))); [cbn [sum]; ring|].
      transitivity (sum 3 (fun a => (if Nat.eqb i a then 1 else 0) * sum 3 (fun b => ent K a b * g' b))).
      { apply sum_ext; intros a Ha. f_equal. apply (Or i a); auto. }
      apply (sumd3 3 (fun a => sum 3 (fun b => ent K a b * g' b))); auto.
    - intros H i Hi. rewrite F.
      transitivity (sum 3 (fun a => ent A a i * q' a)); [|apply sum_ext; intros a Ha; rewrite (H a Ha); reflexivity].
      transitivity (sum 3 (fun k => (if Nat.eqb i k then 1 else 0) * q k)); [symmetry; apply (sumd3 3 q); auto|].
      transitivity (sum 3 (fun a => ent A a i * sum 3 (fun k => ent A a k * q k))).
      { transitivity (sum 3 (fun k => sum 3 (fun a => ent A a i * ent A a k) * q k)); [|cbn [sum]; ring].
        apply sum_ext; intros k Hk. rewrite (Oc i k) by auto. reflexivity. }
      apply sum_ext; intros a Ha. rewrite (Hq a Ha). reflexivity. }
  split; [exact Q|].
  intros [(k1 & k2)|Sy] g q g' q' Hg Hq.
  - set (tg := fun i => sum 3 (fun k => ent (tr A) k i * g k)). set (tq := fun i => sum 3 (fun k => ent (tr A) k i * q k)).
    rewrite (Q g q tg tq) by (intros i Hi; reflexivity).
    assert (B : forall x x', (forall i, (i < 3)%nat -> x' i = sum 3 (fun k => ent A k i * x k)) -> forall p, (p < 3)%nat -> sum 3 (fun i => ent A p i * x' i) = x p).
    { intros x x' Hx p Hp. transitivity (sum 3 (fun i => ent A p i * sum 3 (fun k => ent A k i * x k))).
      { apply sum_ext; intros i Hi. rewrite (Hx i Hi). reflexivity. }
      transitivity (sum 3 (fun k => sum 3 (fun i => ent A p i * ent A k i) * x k)); [cbn [sum]; ring|].
      transitivity (sum 3 (fun k => (if Nat.eqb p k then 1 else 0) * x k)); [|apply (sumd3 3 x); auto].
      apply sum_ext; intros k Hk. f_equal. apply (Or p k); auto. }
    assert (Bt : forall x, forall p, (p < 3)%nat -> sum 3 (fun i => ent A i p * sum 3 (fun k => ent (tr A) k i * x k)) = x p).
    { intros x p Hp. transitivity (sum 3 (fun k => sum 3 (fun i => ent A i p * ent A i k) * x k)); [cbn [sum tr ent]; ring|].
      transitivity (sum 3 (fun k => (if Nat.eqb p k then 1 else 0) * x k)); [|apply (sumd3 3 x); auto].
      apply sum_ext; intros k Hk. f_equal. apply (Oc p k); auto. }
    assert (S1 : forall x y, fourier_ort v x y <-> forall i, (i < 3)%nat -> y i = v k11_ * x i).
    { intros x y. unfold fourier_ort. rewrite <- k2, <- k1. split; [intros (h0 & h1 & h2) i Hi; ix3 i; auto|intros h; repeat split; apply h; lia]. }
    rewrite !S1.
    assert (M : (forall i, (i < 3)%nat -> tq i = v k11_ * tg i) <-> (forall i, (i < 3)%nat -> q i = v k11_ * g i)).
    { split; intros H i Hi.
      - rewrite <- (Bt q i Hi), <- (Bt g i Hi). rewrite <- sum_scal_l. apply sum_ext; intros k Hk. change (ent A k i * tq k = v k11_ * (ent A k i * tg k)). rewrite (H k Hk). ring.
      - unfold tq, tg. rewrite <- sum_scal_l. apply sum_ext; intros k Hk. rewrite (H k Hk). ring. }
    rewrite M. split; intros H i Hi.
    + rewrite (Hq i Hi), (Hg i Hi), <- sum_scal_l. apply sum_ext; intros k Hk. rewrite (H k Hk). ring.
    + rewrite <- (B q q' Hq i Hi), <- (B g g' Hg i Hi), <- sum_scal_l. apply sum_ext; intros k Hk. rewrite (H k Hk). ring.
  - apply Q; intros i Hi; [rewrite (Hg i Hi)|rewrite (Hq i Hi)]; apply sum_ext; intros k Hk; cbn [tr ent]; rewrite (Sy k i) by auto; reflexivity.
Qed.
Print Assumptions C98_conductance_partial.
Example C98_conductance_example : orthonormal sample_turn /\ exists G, card_conduct sample_ort (Ok sample_turn) = Ok G.
Proof. split; [exact sample_turn_ok|]. destruct (C98_conductance_partial sample_ort _ sample_turn_ok) as (G & E & _). eauto. Qed.
(** Its derivative is the derivative of what it computes. *)
Theorem C98_conductance_derivative : forall P t d A dA, path_deriv P t d -> varies A t dA ->
  mat_deriv (fun s => card_conduct (at_ P s) (A s)) t (card_conduct_d (at_ P t) d (A t) dA).
Proof.
  intros P t d A dA D VA.
  assert (O1 : offered (KCond 3)) by (exists (RConductance 3); reflexivity).
  assert (VK : forall v, exists K, val_ orthotropic (KCond 3) v = Ok K /\ rows K = 3%nat /\ cols K = 3%nat).
  { intros v. destruct (card_conduct_eq v (mkMat 3 3 (fun _ _ => 0)) eq_refl eq_refl) as (K & V & Kr & Kc & _). eauto. }
  destruct (VK (at_ P t)) as (K & EK & Kr & Kc).
  pose proof (C93_orthotropic_derivative_partial (KCond 3) P t d K O1 ltac:(discriminate) D EK) as M.
  assert (ED : exists dK, der_ orthotropic (KCond 3) (at_ P t) d = Ok dK) by (destruct M as (dK & E & _); eauto). destruct ED as (dK & ED).
  destruct (deriv_dv _ _ _ dK ED M) as (DK & LK).
  pose proof VA as (_ & mA & EA & rA & cA). destruct (dTT_ok A t mA dA VA EA) as (_ & _ & _ & DA & LA).
  pose proof (locally_singleton _ _ LA) as (A1 & A2 & A3). pose proof (locally_singleton _ _ LK) as (K1 & K2 & K3). cbv beta in *.
  assert (SK : rows dK = 3%nat /\ cols dK = 3%nat) by (rewrite <- K2, <- K3, EK; auto). destruct SK as (rK & cK). rewrite rK, cK in *.
  eapply (dv_deriv _ _ 3 3 (fun s i j => sum 3 (fun b => sum 3 (fun a => ent (matof (A s)) a i * ent (matof (val_ orthotropic (KCond 3) (at_ P s))) a b) * ent (matof (A s)) b j))).
  - generalize (filter_and _ _ LA LK). apply filter_imp. intros s ((a1 & a2 & a3) & (c1 & c2 & c3)). unfold card_conduct.
    rewrite c1, a1. cbn [bind matof]. unfold conduct. apply mul3_eq'; auto.
  - exact (dv_mul3 3 3 3 3 _ _ _ t _ _ _ (dv_tr _ _ _ _ _ DA) DK DA).
  - unfold card_conduct_d. rewrite K1, A1, ED, EA. cbn [bind matof]. unfold conduct_d.
    rewrite !(mul3_eq' 3 3 3 3) by auto. cbn [bind]. rewrite add3_eq. reflexivity.
Qed.
Print Assumptions C98_conductance_derivative.

(** ** The isotropic solid card *)
(** Its two matrices are those of the heated isotropic law ... *)
Theorem C98_isotropic_card : forall v T, admissible_iso v ->
  exists G b, iso_card_stiff v = Ok G /\ iso_card_therm v = Ok b /\ rows b = 6%nat /\ cols b = 1%nat /\ elastic G 6 /\
    forall e s, card_stress G b T e s <-> heated (hooke_iso v) (free_iso v) T e s.
Proof.
  intros v T Av. destruct (C92_isotropic_stiffness v KStiff3 Av I) as (C & V & El & _).
  destruct (C96_heated_isotropic_partial v KStiff3 T Av) as (C' & a & V' & Va & ar & ac & L); [cbn; auto|].
  rewrite V in V'. injection V' as <-. cbn [size_of dim_of law_of] in *. pose proof El as (Cr & Cc & _).
  exists C. eexists. split; [exact V|]. split.
  { unfold iso_card_therm. rewrite V, Va. cbn [bind]. unfold mul. rewrite Cc, ar. reflexivity. }
  cbn [rows cols]. split; [exact Cr|]. split; [exact ac|]. split; [exact El|].
  intros e s. rewrite <- L. unfold card_stress, heated_matrices. cbn [ent]. reflexivity.
Qed.
Print Assumptions C98_isotropic_card.
Example C98_isotropic_card_example : exists v, admissible_iso v.
Proof. exists (fun x => match x with E_ => 70 | nu_ => 1 / 4 | _ => 1 end). unfold admissible_iso. lra. Qed.
(** ... but the derivative of the thermal one is refused whatever the parameter. *)
Theorem C98_isotropic_thermal_derivative_refuted : exists P t d, path_deriv P t d /\ admissible_iso (at_ P t) /\
  ~ mat_deriv (fun s => iso_card_therm (at_ P s)) t (iso_card_therm_d (at_ P t) d).
Proof.
  exists (fun x _ => match x with E_ => 70 | nu_ => 1 / 4 | _ => 1 end), 0, (fun _ => 0). split; [|split].
  - intros x. apply @is_derive_const.
  - unfold admissible_iso, at_. lra.
  - intros (d & E & _). discriminate E.
Qed.
Print Assumptions C98_isotropic_thermal_derivative_refuted.
