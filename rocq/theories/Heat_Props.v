(** Theorems about heat conduction elements: C121-C125. *)
From Coq Require Import Reals Lra.
From Coquelicot Require Import Coquelicot.
From Coq Require Import List Arith Bool Lia FunctionalExtensionality.
From Verif Require Import Base BaseLemmas RBool Sens_Model Sens_Spec Sens_Proofs Sens_Proofs2
  Heat_Model Heat_Spec Heat_Proofs Heat_Proofs2 Heat_Proofs3.
Import ListNotations.
Open Scope R_scope.

(** ** C121: the residual an element hands to the assembly is the weak form, whether or not a Jacobian is
    asked for; loads the element does not know are refused. *)
Theorem C121_residual_is_weak_form : forall n dim k sec act h t T req,
  supported h ->
  exists f jac, elem_calculations n dim k sec act h t T req = Ok (f, jac) /\
    (forall a, f a = weak_form n dim k sec act h t T a) /\
    (req = false -> forall a b, jac a b = 0).
Proof.
  intros n dim k sec act h t T req S. destruct (elem_gives n dim k sec act h t T req S) as (f & jac & E & F & J).
  exists f, jac. split; [exact E|]. split; [exact F|]. intros ->. intros; now rewrite J.
Qed.
Theorem C121_unknown_loads_refused : forall n dim k sec act h t T req,
  (exists s b, In s (sides h) /\ In b (snd s) /\ side_ok b = false) \/ (exists b, In b (volume h) /\ volume_ok b = false) ->
  exists e, elem_calculations n dim k sec act h t T req = Fault e.
Proof.
  intros n dim k sec act h t T req H. unfold elem_calculations.
  assert (SF : (exists s b, In s (sides h) /\ In b (snd s) /\ side_ok b = false) ->
     forall fj, exists e, side_external_residual n sec h t T req fj = Fault e).
  { intros (s & b & Hs & Hb & B) fj. unfold side_external_residual.
    apply (each_gen_fault _ _ fj). exists s. split; [exact Hs|]. intros g. apply each_gen_fault. exists b. split; [exact Hb|].
    intros u. destruct b; try discriminate; eexists; reflexivity. }
  destruct H as [H|(b & Hb & B)].
  - destruct (SF H (internal_residual n dim k act (points h) t T req (zero, mzero))) as (e & ->). eexists; reflexivity.
  - destruct (side_external_residual _ _ _ _ _ _ _) as [fj|e]; cbn [bind]; [|eexists; reflexivity].
    apply each_gen_fault. exists b. split; [exact Hb|]. intros u. destruct b; try discriminate; eexists; reflexivity.
Qed.

(** ** C122: Jacobian and sensitivity are the derivative of the residual, along every history of the
    temperature and of the parameter. *)
Theorem C122_tangent_partial : forall n dim k sec act h t0 (T : R -> vec) dT,
  supported h -> history n t0 T dT ->
  (forall i j, (i < dim)%nat -> (j < dim)%nat -> smooth_field (k i j) t0) -> smooth_section sec t0 ->
  all_loads h (fun b => smooth_bc b t0) -> all_loads h radiation_fixed ->
  exists f jac s, elem_calculations n dim k sec act h t0 (T t0) true = Ok (f, jac) /\
    elem_sensitivity_calculations n dim k sec act h t0 (T t0) = Ok s /\
    forall a, is_derive (fun t => weak_form n dim k sec act h t (T t) a) t0 (sum n (fun b => jac a b * dT b) + s a).
Proof.
  intros n dim k sec act h t0 T dT S HT SK SS SB RF.
  destruct (elem_gives n dim k sec act h t0 (T t0) true S) as (f & jac & E & F & J).
  destruct (elem_sgives n dim k sec act h t0 (T t0) S) as (s & Es & Fs).
  exists f, jac, s. split; [exact E|]. split; [exact Es|]. intros a. rewrite Fs.
  rewrite (sum_ext n _ (fun c => jac_of n dim k sec act h t0 (T t0) a c * dT c)) by (intros; now rewrite J).
  now apply der_weak.
Qed.
(** What is missing: a parameter that moves the ambient temperature of a radiating side. *)
Definition amb_rad : bc := Radiation (mkL (fun _ _ => 1) (fun _ _ => 0)) (mkL (fun t _ => t) (fun _ _ => 1))
  (mkL (fun _ _ => 0) (fun _ _ => 0)) (mkL (fun _ _ => 1) (fun _ _ => 0)).
Definition pt1 : qpt := mkQ 1 (fun _ => 0) (fun _ => 1) (fun _ _ => 0) (fun _ => 0).
Definition rad_elem : hload := mkHL [] [([pt1], [amb_rad])] [].
Definition no_k (i j : nat) : field := mkF (fun _ _ _ => 0) (fun _ _ _ => 0) (fun _ _ _ => 0).
Theorem C122_radiation_refuted : exists k h t0 (T : R -> vec) dT,
  supported h /\ history 1 t0 T dT /\ all_loads h (fun b => smooth_bc b t0) /\
  (forall i j, (i < 1)%nat -> (j < 1)%nat -> smooth_field (k i j) t0) /\
  exists f jac s, elem_calculations 1 1 k None false h t0 (T t0) true = Ok (f, jac) /\
    elem_sensitivity_calculations 1 1 k None false h t0 (T t0) = Ok s /\
    ~ is_derive (fun t => weak_form 1 1 k None false h t (T t) 0%nat) t0 (sum 1 (fun b => jac 0%nat b * dT b) + s 0%nat).
Proof.
  exists no_k, rad_elem, 1, (fun _ _ => 1), zero.
  assert (SU : supported rad_elem).
  { split; [|intros b []]. intros s b [<-|[]] [<-|[]]. reflexivity. }
  split; [exact SU|]. split; [intros a _; apply der_const|].
  assert (SB : all_loads rad_elem (fun b => smooth_bc b 1)).
  { split; [|intros b []]. intros s b [<-|[]] [<-|[]]. cbn. split; [|split; [|split]]; intros x; [apply (der_const 1)|apply (@is_derive_id R_AbsRing)|apply (der_const 0)|apply (der_const 1)]. }
  split; [exact SB|]. split.
  { intros i j _ _. split; intros; cbn; [|apply der_const].
    apply (der_ext (fun _ => 0) _ 1 0); [auto|ring|apply der_const]. }
  destruct (elem_gives 1 1 no_k None false rad_elem 1 (fun _ => 1) true SU) as (f & jac & E & F & J).
  destruct (elem_sgives 1 1 no_k None false rad_elem 1 (fun _ => 1) SU) as (s & Es & Fs).
  exists f, jac, s. split; [exact E|]. split; [exact Es|]. intros D.
  rewrite Fs in D.
  assert (Z : sum 1 (fun b => jac 0%nat b * zero b) + par_of 1 1 no_k None false rad_elem 1 (fun _ => 1) 0%nat = 0).
  { unfold par_of, rad_elem, amb_rad, term_p, cond_par, integral, total, lsum, out_p, outflow, T_at, thick, dthick, pt1, no_k.
    cbv -[Rplus Rmult Rminus Ropp Rinv Rdiv IZR]. ring. }
  rewrite Z in D.
  assert (D2 : is_derive (fun t : R => weak_form 1 1 no_k None false rad_elem t (fun _ => 1) 0%nat) 1 (- 4)).
  { apply (der_ext (fun t : R => 1 - t ^ 4) _ 1 (-4)); [|reflexivity|].
    - intros t. unfold weak_form, rad_elem, amb_rad, side_term, conduction, integral, total, lsum, outflow, T_at, section_at, pt1, no_k.
      cbv -[Rplus Rmult Rminus Ropp Rinv Rdiv IZR]. ring.
    - auto_derive; [auto|]. ring. }
  pose proof (is_derive_unique _ _ _ D) as U1. pose proof (is_derive_unique _ _ _ D2) as U2.
  assert (U3 : 0 = -4) by exact (eq_trans (eq_sym U1) U2). lra.
Qed.

(** ** C123: heat storage *)
Theorem C123_storage : forall n dim k c sec lumped act h t T v req,
  supported h ->
  exists fm fx jxd jm jx, elem_calculations_transient n dim k c sec lumped act h t T v req = Ok (fm, fx, jxd, jm, jx) /\
    (forall a, (a < n)%nat -> fm a = integral (points h) (storage n c act lumped t T v a)) /\
    (forall a, fx a = weak_form n dim k sec act h t T a) /\
    (req = false -> forall a b, (a < n)%nat -> jxd a b = 0 /\ jm a b = 0).
Proof.
  intros n dim k c sec lumped act h t T v req S. unfold elem_calculations_transient.
  destruct (elem_gives n dim k sec act h t T req S) as (f & jac & E & F & J).
  destruct (velocity_gives n c lumped act (points h) t T v req) as (fm & jxd & jm & V & V1 & V2 & V3).
  rewrite E. cbn [bind fst snd]. rewrite V. exists fm, f, jxd, jm, jac. split; [reflexivity|]. split; [exact V1|]. split; [exact F|].
  intros -> a b Ha. rewrite (V2 a b Ha), V3. split; reflexivity.
Qed.
(** The three Jacobians and the two sensitivities are derivatives; proved for a consistent capacity matrix, and
    for a lumped one while the capacity does not follow the temperature. *)
Theorem C123_storage_tangent_partial : forall n dim k c sec lumped act h t0 (T V : R -> vec) dT dV,
  supported h -> history n t0 T dT -> history n t0 V dV -> smooth_field c t0 ->
  lumped = false \/ act = false ->
  exists fm fx jxd jm jx sm sx,
    elem_calculations_transient n dim k c sec lumped act h t0 (T t0) (V t0) true = Ok (fm, fx, jxd, jm, jx) /\
    elem_sensitivity_calculations_transient n dim k c sec lumped act h t0 (T t0) (V t0) = Ok (sm, sx) /\
    forall a, (a < n)%nat -> is_derive (fun t => integral (points h) (storage n c act lumped t (T t) (V t) a)) t0
      (sum n (fun b => jxd a b * dV b) + sum n (fun b => jm a b * dT b) + sm a).
Proof.
  intros n dim k c sec lumped act h t0 T V dT dV S HT HV SC LA. unfold elem_calculations_transient, elem_sensitivity_calculations_transient.
  destruct (elem_gives n dim k sec act h t0 (T t0) true S) as (f & jac & E & F & J).
  destruct (elem_sgives n dim k sec act h t0 (T t0) S) as (s & Es & Fs).
  destruct (velocity_gives n c lumped act (points h) t0 (T t0) (V t0) true) as (fm & jxd & jm & VV & V1 & V2 & V3).
  rewrite E, Es. cbn [bind fst snd]. rewrite VV. eexists fm, f, jxd, jm, jac, _, s. split; [reflexivity|]. split; [reflexivity|].
  intros a Ha. rewrite velocity_sgives by exact Ha.
  assert (D := der_integral (points h) (fun t q => storage n c act lumped t (T t) (V t) a q) _ t0
     (fun q _ => der_storage n c lumped act t0 T dT V dV a q SC HT HV Ha)).
  eapply der_ext; [intros t; reflexivity| |exact D].
  assert (EJ : sum n (fun b => jxd a b * dV b) = integral (points h) (fun q => phi q a * (cap_at n c act t0 (T t0) q * (if lumped then sum n (phi q) * dV a else T_at n dV q)))).
  { destruct lumped.
    - rewrite (sum_single n a); auto.
      + rewrite (V2 a a Ha), Nat.eqb_refl, <- integral_mulr. apply integral_ext. intros; ring.
      + intros b _ N. rewrite (V2 a b Ha). destruct (Nat.eqb_spec a b); [congruence|ring].
    - rewrite (sum_ext n _ (fun b => integral (points h) (fun q => cap_at n c act t0 (T t0) q * (phi q a * phi q b) * dV b))).
      + rewrite <- integral_sum. apply integral_ext. intros q _. unfold T_at. rewrite <- !sum_scal_l. apply sum_ext. intros; ring.
      + intros b _. rewrite (V2 a b Ha). rewrite <- integral_mulr. reflexivity. }
  assert (EM : sum n (fun b => jm a b * dT b) = integral (points h) (fun q => phi q a * ((if act then dcap_at n c act t0 (T t0) q * T_at n dT q else 0)
        * (if lumped then sum n (phi q) * V t0 a else T_at n (V t0) q)))).
  { destruct act.
    - destruct LA as [->|LA]; [|discriminate].
      rewrite (sum_ext n _ (fun b => integral (points h) (fun q => T_at n (V t0) q * dcap_at n c true t0 (T t0) q * (phi q a * phi q b) * dT b))).
      + rewrite <- integral_sum. apply integral_ext. intros q _. 
        rewrite (sum_ext n _ (fun b => T_at n (V t0) q * dcap_at n c true t0 (T t0) q * phi q a * (phi q b * dT b))) by (intros; ring).
        rewrite sum_scal_l. fold (T_at n dT q). ring.
      + intros b _. rewrite V3. cbn [andb]. rewrite <- integral_mulr. reflexivity.
    - rewrite (sum_0 n (fun b => jm a b * dT b)) by (intros; rewrite V3; cbn; ring). symmetry. apply integral_0. intros; ring. }
  rewrite EJ, EM. unfold zero. rewrite Rplus_0_l, <- !integral_add. apply integral_ext. intros q _. ring.
Qed.
(** A lumped capacity that follows the temperature: the Jacobian is not the derivative. *)
Definition cap_T : field := mkF (fun _ s _ => match s with Some T => T | None => 0 end) (fun _ _ _ => 0) (fun _ _ _ => 1).
Definition pt2 : qpt := mkQ 1 (fun _ => 0) (fun _ => 1 / 2) (fun _ _ => 0) (fun _ => 0).
Definition bar2 : hload := mkHL [pt2] [] [].
Theorem C123_lumped_refuted : exists k c h t0 (T V : R -> vec) dT dV a,
  supported h /\ history 2 t0 T dT /\ history 2 t0 V dV /\ smooth_field c t0 /\ (a < 2)%nat /\
  exists fm fx jxd jm jx sm sx,
    elem_calculations_transient 2 1 k c None true true h t0 (T t0) (V t0) true = Ok (fm, fx, jxd, jm, jx) /\
    elem_sensitivity_calculations_transient 2 1 k c None true true h t0 (T t0) (V t0) = Ok (sm, sx) /\
    ~ is_derive (fun t => integral (points h) (storage 2 c true true t (T t) (V t) a)) t0
      (sum 2 (fun b => jxd a b * dV b) + sum 2 (fun b => jm a b * dT b) + sm a).
Proof.
  set (v0 := fun a : nat => if (a =? 0)%nat then 1 else 0).
  exists no_k, cap_T, bar2, 0, (fun t a => t * v0 a), (fun _ => v0), v0, zero, 0%nat.
  assert (SU : supported bar2) by (split; [intros s b []|intros b []]).
  assert (SC : smooth_field cap_T 0).
  { split; intros; cbn; [|apply der_const]. apply (der_ext T _ 0 dT); [auto|ring|assumption]. }
  assert (HT : history 2 0 (fun t a => t * v0 a) v0).
  { intros a _. apply (der_ext (fun t : R => t * v0 a) _ 0 (v0 a)); [auto|ring|]. auto_derive; [auto|ring]. }
  split; [exact SU|]. split; [exact HT|]. split; [intros a _; apply der_const|]. split; [exact SC|]. split; [lia|].
  unfold elem_calculations_transient, elem_sensitivity_calculations_transient.
  destruct (elem_gives 2 1 no_k None true bar2 0 (fun a => 0 * v0 a) true SU) as (f & jac & E & F & J).
  destruct (elem_sgives 2 1 no_k None true bar2 0 (fun a => 0 * v0 a) SU) as (s & Es & Fs).
  destruct (velocity_gives 2 cap_T true true (points bar2) 0 (fun a => 0 * v0 a) v0 true) as (fm & jxd & jm & VV & V1 & V2 & V3).
  rewrite E, Es. cbn [bind fst snd]. rewrite VV. eexists fm, f, jxd, jm, jac, _, s. split; [reflexivity|]. split; [reflexivity|].
  intros D. rewrite velocity_sgives in D by lia.
  assert (EJ : sum 2 (fun b => jm 0%nat b * v0 b) = 1 / 8).
  { cbn [sum]. rewrite !V3. unfold integral, total, lsum, bar2, pt2, dcap_at, T_at, v0, cap_T. cbn. field. }
  assert (D2 : is_derive (fun t : R => integral (points bar2) (storage 2 cap_T true true t (fun a => t * v0 a) v0 0%nat)) 0 (1 / 4)).
  { apply (der_ext (fun t : R => t / 4) _ 0 (1 / 4)); [|reflexivity|].
    - intros t. unfold storage, integral, total, lsum, bar2, pt2, T_at, v0, cap_T. cbn. unfold T_at. cbn. field.
    - auto_derive; [auto|]. field. }
  pose proof (is_derive_unique _ _ _ D) as U1. pose proof (is_derive_unique _ _ _ D2) as U2.
  pose proof (eq_trans (eq_sym U1) U2) as U3. rewrite EJ in U3. revert U3. unfold integral, total, lsum, bar2, pt2, pcap_at, cap_T, zero. cbn. lra.
Qed.

(** ** C124: heat balance, symmetry and definiteness *)
(** total outflow of heat through the loads, at the interpolated temperature *)
Definition loads_out (n : nat) (sec : option lfun) (h : hload) (t : R) (T : vec) : R :=
  total (fun s => total (fun b => integral (fst s) (fun q => section_at sec t (xyz q) * outflow b t (T_at n T q) (xyz q))) (snd s)) (sides h)
  + total (fun b => integral (points h) (fun q => (if is_source b then section_at sec t (xyz q) else 1) * outflow b t (T_at n T q) (xyz q))) (volume h).
(** Conduction moves heat between the nodes of an element without creating any; lumping keeps the heat content. *)
Theorem C124_heat_balance : forall n dim k c sec lumped act h t T v req,
  supported h -> (forall q, In q (points h) -> partition n dim q) ->
  (forall s q, In s (sides h) -> In q (fst s) -> partition n dim q) ->
  exists fm fx jxd jm jx, elem_calculations_transient n dim k c sec lumped act h t T v req = Ok (fm, fx, jxd, jm, jx) /\
    sum n fx = loads_out n sec h t T /\
    sum n fm = integral (points h) (fun q => val c t (state_at act n T q) (xyz q) * T_at n v q).
Proof.
  intros n dim k c sec lumped act h t T v req S P PS.
  destruct (C123_storage n dim k c sec lumped act h t T v req S) as (fm & fx & jxd & jm & jx & E & F1 & F2 & _).
  exists fm, fx, jxd, jm, jx. split; [exact E|]. split.
  - rewrite (sum_ext n fx (weak_form n dim k sec act h t T)) by (intros; apply F2). unfold weak_form, loads_out.
    rewrite !sum_plus. rewrite sum_integral, (integral_0 (points h)) by (intros q Hq; apply sum_conduction; apply P; exact Hq). rewrite Rplus_0_l.
    apply (f_equal2 Rplus).
    + rewrite sum_total. apply total_eq. intros s Hs. rewrite sum_total. apply total_eq. intros b _. rewrite sum_integral.
      apply integral_ext. intros q Hq. unfold side_term. rewrite sum_scal_r. destruct (PS s q Hs Hq) as [U _].
      change (sum n (fun a => phi q a)) with (sum n (phi q)). rewrite U. ring.
    + rewrite sum_total. apply total_eq. intros b _. rewrite sum_integral.
      apply integral_ext. intros q Hq. unfold volume_term. rewrite sum_scal_r. destruct (P q Hq) as [U _].
      change (sum n (fun a => phi q a)) with (sum n (phi q)). rewrite U. ring.
  - rewrite (sum_ext n fm (fun a => integral (points h) (storage n c act lumped t T v a))) by (intros; now apply F1).
    rewrite sum_integral. apply integral_ext. intros q Hq. destruct (P q Hq) as [U _]. unfold storage. destruct lumped.
    + rewrite U. unfold T_at. rewrite <- sum_scal_l. apply sum_ext. intros; ring.
    + rewrite sum_scal_r. change (sum n (fun a => phi q a)) with (sum n (phi q)). rewrite U. ring.
Qed.
(** A body at one temperature conducts no heat. *)
Theorem C124_uniform_temperature : forall n dim k sec act h t T T0 req,
  supported h -> (forall q, In q (points h) -> partition n dim q) -> (forall a, (a < n)%nat -> T a = T0) ->
  exists f jac, elem_calculations n dim k sec act h t T req = Ok (f, jac) /\
    forall a, f a = total (fun s => total (fun b => integral (fst s) (side_term n sec t T a b)) (snd s)) (sides h)
      + total (fun b => integral (points h) (volume_term n sec t T a b)) (volume h).
Proof.
  intros n dim k sec act h t T T0 req S P U. destruct (elem_gives n dim k sec act h t T req S) as (f & jac & E & F & _).
  exists f, jac. split; [exact E|]. intros a. rewrite F. unfold weak_form.
  rewrite (integral_0 (points h)); [ring|]. intros q Hq. destruct (P q Hq) as [_ G]. unfold conduction.
  apply sum_0. intros i _. apply sum_0. intros j Hj.
  assert (D : dT_at n T q j = 0).
  { unfold dT_at. rewrite (sum_ext n _ (fun a => dphi q a j * T0)) by (intros; now rewrite U). rewrite sum_scal_r, (G j Hj). ring. }
  rewrite D. ring.
Qed.
(** The Jacobian is symmetric for a symmetric conductivity that does not follow the temperature. *)
Theorem C124_symmetric : forall n dim k sec h t T req f jac,
  supported h -> elem_calculations n dim k sec false h t T req = Ok (f, jac) ->
  (forall i j x, val (k i j) t None x = val (k j i) t None x) ->
  forall a b, jac a b = jac b a.
Proof.
  intros n dim k sec h t T req f jac S E Y a b. destruct (elem_gives n dim k sec false h t T req S) as (f' & jac' & E' & _ & J).
  rewrite E in E'. injection E' as <- <-. rewrite !J. destruct req; [|reflexivity]. unfold jac_of.
  apply (f_equal2 Rplus); [apply (f_equal2 Rplus)|].
  - apply integral_ext. intros q _. unfold cond_tan. rewrite sum_swap. apply sum_ext. intros i _. apply sum_ext. intros j _.
    cbn [state_at]. rewrite (Y j i). ring.
  - apply total_eq. intros s _. apply total_eq. intros c _. apply integral_ext. intros q _. unfold term_T. ring.
  - apply total_eq. intros c _. apply integral_ext. intros q _. unfold term_T. ring.
Qed.
(** a load that takes away more heat when the body gets warmer *)
Definition restoring (b : bc) (t T : R) (x : nat -> R) : Prop :=
  match b with
  | Convection h _ => 0 <= lval h t x
  | Radiation e _ z sb => 0 <= lval e t x /\ 0 <= lval sb t here /\ 0 <= T + lval z t here
  | _ => True
  end.
Theorem C124_semidefinite : forall n dim k sec h t T f jac,
  supported h -> elem_calculations n dim k sec false h t T true = Ok (f, jac) ->
  (forall x y, 0 <= sum dim (fun i => sum dim (fun j => y i * (val (k i j) t None x * y j)))) ->
  (forall q, In q (points h) -> 0 <= jxw q) -> (forall s q, In s (sides h) -> In q (fst s) -> 0 <= jxw q) ->
  (forall x, 0 <= section_at sec t x) ->
  (forall s b q, In s (sides h) -> In b (snd s) -> In q (fst s) -> restoring b t (T_at n T q) (xyz q)) ->
  (forall b q, In b (volume h) -> In q (points h) -> restoring b t (T_at n T q) (xyz q)) ->
  forall y, 0 <= sum n (fun a => sum n (fun b => y a * (jac a b * y b))).
Proof.
  intros n dim k sec h t T f jac S E K W WS SE RS RV y.
  destruct (elem_gives n dim k sec false h t T true S) as (f' & jac' & E' & _ & J).
  rewrite E in E'. injection E' as <- <-.
  assert (OT : forall s b q, restoring b t (T_at n T q) (xyz q) -> 0 <= thick sec s t q * out_T b t (T_at n T q) (xyz q)).
  { intros s b q R0. apply Rmult_le_pos; [unfold thick; destruct s; [apply SE|lra]|].
    destruct b; cbn -[pow] in *; try lra. destruct R0 as (R1 & R2 & R3).
    apply Rmult_le_pos; [apply Rmult_le_pos; [apply Rmult_le_pos; auto|lra]|]. apply pow_le. exact R3. }
  assert (TT : forall s b q, restoring b t (T_at n T q) (xyz q) -> 0 <= sum n (fun a => sum n (fun c => y a * (term_T n sec s b t T a c q * y c)))).
  { intros s b q R0. rewrite (sum_ext n _ (fun a => (y a * phi q a) * (thick sec s t q * out_T b t (T_at n T q) (xyz q)) * T_at n y q)).
    - rewrite (sum_ext n _ (fun a => (phi q a * y a) * ((thick sec s t q * out_T b t (T_at n T q) (xyz q)) * T_at n y q))) by (intros; ring).
      rewrite sum_scal_r. fold (T_at n y q).
      replace (T_at n y q * (thick sec s t q * out_T b t (T_at n T q) (xyz q) * T_at n y q))
        with ((thick sec s t q * out_T b t (T_at n T q) (xyz q)) * (T_at n y q * T_at n y q)) by ring.
      apply Rmult_le_pos; [now apply OT|]. apply Rle_0_sqr.
    - intros a _. unfold term_T.
      rewrite (sum_ext n _ (fun c => y a * phi q a * (thick sec s t q * out_T b t (T_at n T q) (xyz q)) * (phi q c * y c))) by (intros; ring).
      rewrite sum_scal_l. reflexivity. }
  assert (CC : forall q, 0 <= sum n (fun a => sum n (fun c => y a * (cond_tan n dim k false t T a c q * y c)))).
  { intros q. rewrite (sum_ext n _ (fun a => sum dim (fun i => sum dim (fun j => (dphi q a i * y a) * (val (k i j) t None (xyz q) * dT_at n y q j))))).
    - rewrite sum_swap. rewrite (sum_ext dim _ (fun i => sum dim (fun j => dT_at n y q i * (val (k i j) t None (xyz q) * dT_at n y q j)))); [apply K|].
      intros i _. rewrite sum_swap. apply sum_ext. intros j _. rewrite sum_scal_r. reflexivity.
    - intros a _. unfold cond_tan. cbn [state_at].
      rewrite (sum_ext n _ (fun c => sum dim (fun i => sum dim (fun j => y a * dphi q a i * val (k i j) t None (xyz q) * (dphi q c j * y c))))).
      + rewrite sum_swap. apply sum_ext. intros i _. rewrite sum_swap. apply sum_ext. intros j _. rewrite sum_scal_l. unfold dT_at. ring.
      + intros c _. rewrite <- sum_scal_r, <- sum_scal_l. apply sum_ext. intros i _. rewrite <- sum_scal_r, <- sum_scal_l.
        apply sum_ext. intros j _. ring. }
  assert (II : forall qs g, sum n (fun a => sum n (fun c => y a * (integral qs (g a c) * y c))) = integral qs (fun q => sum n (fun a => sum n (fun c => y a * (g a c q * y c))))).
  { intros qs g. rewrite integral_sum. apply sum_ext. intros a _. rewrite integral_sum. apply sum_ext. intros c _.
    rewrite Rmult_comm, Rmult_assoc, <- integral_mulr. apply integral_ext. intros; ring. }
  assert (TI : forall (A : Type) (l : list A) g, sum n (fun a => sum n (fun c => y a * (total (g a c) l * y c))) = total (fun x => sum n (fun a => sum n (fun c => y a * (g a c x * y c)))) l).
  { intros A l g. rewrite total_sum. apply sum_ext. intros a _. rewrite total_sum. apply sum_ext. intros c _.
    rewrite (total_eq (fun x => y a * (g a c x * y c)) (fun x => (y a * y c) * g a c x)) by (intros; ring). rewrite total_mul. ring. }
  rewrite (sum_ext n _ (fun a => sum n (fun c => y a * (integral (points h) (cond_tan n dim k false t T a c) * y c))
    + sum n (fun c => y a * (total (fun s => total (fun b => integral (fst s) (term_T n sec true b t T a c)) (snd s)) (sides h) * y c))
    + sum n (fun c => y a * (total (fun b => integral (points h) (term_T n sec (is_source b) b t T a c)) (volume h) * y c)))).
  2:{ intros a _. rewrite <- !sum_plus. apply sum_ext. intros c _. rewrite J. unfold jac_of. ring. }
  rewrite !sum_plus. apply Rplus_le_le_0_compat; [apply Rplus_le_le_0_compat|].
  - rewrite II. apply integral_nonneg. intros q Hq. split; [now apply W|apply CC].
  - rewrite (TI _ (sides h) (fun a c s => total (fun b => integral (fst s) (term_T n sec true b t T a c)) (snd s))).
    apply total_nonneg. intros s Hs.
    rewrite (TI _ (snd s) (fun a c b => integral (fst s) (term_T n sec true b t T a c))). apply total_nonneg. intros b Hb.
    rewrite II. apply integral_nonneg. intros q Hq. split; [now apply (WS s)|apply TT; now apply (RS s)].
  - rewrite (TI _ (volume h) (fun a c b => integral (points h) (term_T n sec (is_source b) b t T a c))). apply total_nonneg. intros b Hb.
    rewrite II. apply integral_nonneg. intros q Hq. split; [now apply W|apply TT; now apply RV].
Qed.

(** ** C125: moving a boundary with velocity [bv] changes the residual by the integrand of its volume terms
    times the normal velocity; loads on the sides do not take part. *)
Definition normal_velocity (dim : nat) (bv : (nat -> R) -> nat -> R) (q : qpt) : R := sum dim (fun i => bv (xyz q) i * nrm q i).
Theorem C125_boundary_velocity : forall n dim k sec act side bv loads t T,
  (forall b, In b loads -> volume_ok b = true) ->
  exists f, elem_topology_sensitivity_calculations n dim k sec act side bv loads t T = Ok f /\
    forall a, f a = integral side (fun q => normal_velocity dim bv q *
      (conduction n dim k act t T a q + total (fun b => volume_term n sec t T a b q) loads)).
Proof.
  intros n dim k sec act side bv loads t T H. unfold elem_topology_sensitivity_calculations.
  destruct (each_sgives (volume_load_bv n dim sec side bv t T) (fun b a => integral side (fun q => vn dim bv q * volume_term n sec t T a b q)) loads
    (fun b f Hb => load_bv n dim sec side bv t T b f (H b Hb)) (internal_residual_boundary_velocity n dim k act side bv t T zero)) as (f & E & F).
  exists f. split; [exact E|]. intros a. rewrite F, internal_bv. unfold zero. rewrite Rplus_0_l.
  transitivity (integral side (fun q => vn dim bv q * conduction n dim k act t T a q + total (fun b => vn dim bv q * volume_term n sec t T a b q) loads)).
  - rewrite (integral_add side (fun q => vn dim bv q * conduction n dim k act t T a q)). apply (f_equal2 Rplus); [reflexivity|].
    symmetry. apply (integral_total side (fun q b => vn dim bv q * volume_term n sec t T a b q)).
  - apply integral_ext. intros q _. rewrite total_mul. unfold normal_velocity, vn. ring.
Qed.
Theorem C125_storage_boundary_velocity : forall n dim c lumped act side bv t T v f a, (a < n)%nat ->
  velocity_residual_boundary_velocity n dim c lumped act side bv t T v f a =
  f a + integral side (fun q => normal_velocity dim bv q * storage n c act lumped t T v a q).
Proof.
  intros n dim c lumped act side bv t T v f a Ha. unfold velocity_residual_boundary_velocity.
  rewrite (finish_gives n lumped (jxw_vn dim bv) (fun q => val c t (at_temp n act q T) (xyz q)) v side f a Ha).
  f_equal. unfold integral. apply total_eq. intros q _. rewrite jxw_vn_eq. unfold normal_velocity, vn, storage, at_temp, state_at, interp, T_at. ring.
Qed.

(** ** A concrete element: a bar with two nodes, convection at one end and a source inside. *)
Definition cnst (c : R) : lfun := mkL (fun _ _ => c) (fun _ _ => 0).
Definition iso (i j : nat) : field := mkF (fun t _ _ => if (i =? j)%nat then t else 0) (fun _ _ _ => if (i =? j)%nat then 1 else 0) (fun _ _ _ => 0).
Definition mid : qpt := mkQ 2 (fun _ => 1) (fun _ => 1 / 2) (fun a _ => if (a =? 0)%nat then -1 / 2 else 1 / 2) (fun _ => 1).
Definition tip : qpt := mkQ 1 (fun _ => 2) (fun a => if (a =? 0)%nat then 0 else 1) (fun a _ => if (a =? 0)%nat then -1 / 2 else 1 / 2) (fun _ => 1).
Definition bar : hload := mkHL [mid] [([tip], [Convection (cnst 3) (cnst 10); Dirichlet])] [HeatSource (cnst 7)].
Example bar_supported : supported bar.
Proof.
  split; [intros s b [<-|[]] [<-|[<-|[]]]; reflexivity|intros b [<-|[]]; reflexivity].
Qed.
Example bar_partition : forall q, In q [mid; tip] -> partition 2 1 q.
Proof.
  intros q [<-|[<-|[]]]; split; cbn; try lra; intros j _; lra.
Qed.
Example bar_smooth : (forall i j, smooth_field (iso i j) 5) /\ all_loads bar (fun b => smooth_bc b 5) /\ all_loads bar radiation_fixed.
Proof.
  split; [|split; split].
  - intros i j. split; intros; cbn; destruct (i =? j)%nat.
    + apply (der_ext (fun t : R => t) _ 5 1); [auto|ring|apply (@is_derive_id R_AbsRing)].
    + apply (der_ext (fun t : R => 0) _ 5 0); [auto|ring|apply (der_const 0)].
    + apply (@is_derive_id R_AbsRing).
    + apply (der_const 0).
  - intros s b [<-|[]] [<-|[<-|[]]]; [split; intros x; [apply (der_const 3)|apply (der_const 10)]|exact I].
  - intros b [<-|[]]. intros x. apply (der_const 7).
  - intros s b [<-|[]] [<-|[<-|[]]]; exact I.
  - intros b [<-|[]]. exact I.
Qed.
(** end residual: conduction 5 (20 - 30) / 2, convection 3 (20 - 10), source -7 *)
Example bar_residual : weak_form 2 1 iso None false bar 5 (fun a => if (a =? 0)%nat then 30 else 20) 1%nat = - 25 + 30 - 7.
Proof.
  unfold weak_form, conduction, side_term, volume_term, outflow, section_at, integral, total, lsum, bar, mid, tip, T_at, dT_at, iso, cnst. cbn. field.
Qed.
Example bar_definite : (forall x (y : nat -> R), 0 <= sum 1 (fun i => sum 1 (fun j => y i * (val (iso i j) 5 None x * y j)))) /\
  restoring (Convection (cnst 3) (cnst 10)) 5 20 (fun _ => 2).
Proof. split; [intros x y; cbn; pose proof (Rle_0_sqr (y 0%nat)) as Q; unfold Rsqr in Q; lra|cbn; lra]. Qed.
Example bar_refused : exists e, elem_calculations 2 1 iso None false (mkHL [mid] [] [OtherBC]) 5 zero true = Fault e.
Proof. apply C121_unknown_loads_refused. right. exists OtherBC. split; [now left|reflexivity]. Qed.
(** the tip moving outwards with unit speed: heat flux and source there *)
Example bar_velocity : exists f, elem_topology_sensitivity_calculations 2 1 iso None false [tip] (fun _ _ => 1) [HeatSource (cnst 7)] 5
    (fun a => if (a =? 0)%nat then 30 else 20) = Ok f /\ f 1%nat = - 25 / 2 - 7.
Proof.
  destruct (C125_boundary_velocity 2 1 iso None false [tip] (fun _ _ => 1) [HeatSource (cnst 7)] 5 (fun a => if (a =? 0)%nat then 30 else 20)) as (f & E & F).
  { intros b [<-|[]]. reflexivity. }
  exists f. split; [exact E|]. rewrite F.
  unfold normal_velocity, conduction, volume_term, outflow, section_at, integral, total, lsum, tip, T_at, dT_at, iso, cnst. cbn. field.
Qed.

Print Assumptions C121_residual_is_weak_form.
Print Assumptions C121_unknown_loads_refused.
Print Assumptions C122_tangent_partial.
Print Assumptions C122_radiation_refuted.
Print Assumptions C123_storage.
Print Assumptions C123_storage_tangent_partial.
Print Assumptions C123_lumped_refuted.
Print Assumptions C124_heat_balance.
Print Assumptions C124_uniform_temperature.
Print Assumptions C124_symmetric.
Print Assumptions C124_semidefinite.
Print Assumptions C125_boundary_velocity.
Print Assumptions C125_storage_boundary_velocity.
