From Coq Require Import Reals Lra.
From Coquelicot Require Import Coquelicot.
From Coq Require Import List Arith Bool Lia.
From Verif Require Import Base BaseLemmas RBool Sens_Spec Sens_Proofs Sens_Proofs2 Heat_Proofs Solid_Model Solid_Spec Solid_Proofs2 Dof6_Model Dof6_Proofs Beam_Model Beam_Spec Beam_Proofs Beam_Proofs2 Beam_Props
  Plate_Model Plate_Spec Load_Model Load_Spec Load_Proofs Load_Proofs2 Load_Proofs3 Load_Props.
Import ListNotations.
Open Scope R_scope.

(** C156: the pressure of piston theory and its derivatives *)
Theorem C156_value : forall order fl dwdx dwdt, supersonic fl -> pressure order fl dwdx dwdt = Ok (piston order fl (downwash fl dwdx dwdt)).
Proof. intros. unfold pressure. rewrite finite_ok by auto. now rewrite pressure_eq. Qed.
Print Assumptions C156_value.

Lemma flow_eta fl : mkFlow (fV fl) (fM fl) (frho fl) (fgam fl) = fl. Proof. now destruct fl. Qed.
Lemma sq_cont (M : R -> R) (t0 : R) : ex_derive M t0 -> continuous (fun s : R => M s ^ 2) t0.
Proof. intros H. apply (ex_derive_continuous (fun s : R => M s ^ 2) t0). auto_derive. exact H. Qed.
Lemma near_supersonic (fl : R -> flow) d (t0 : R) : flow_derivative fl d t0 -> supersonic (fl t0) -> locally t0 (fun s => supersonic (fl s)).
Proof.
  intros (DV & DM & _ & _) [HM HV]. unfold supersonic. apply filter_and.
  - assert (C : continuous (fun s => fM (fl s) ^ 2) t0). { apply (sq_cont (fun s => fM (fl s))). now exists (fM d). }
    exact (C _ (open_gt 1 _ HM)).
  - assert (C : continuous (fun s => fV (fl s)) t0) by (apply (ex_derive_continuous (fun s : R => fV (fl s)) t0); now exists (fV d)).
    exact (C _ (open_neq 0 _ HV)).
Qed.
Lemma der_flow order (fl : R -> flow) d (x y : R -> R) dx dy (t0 : R) : flow_derivative fl d t0 -> supersonic (fl t0) -> is_derive x t0 dx -> is_derive y t0 dy ->
  is_derive (fun s => pressure_val order (fl s) (x s) (y s)) t0 (pressure_der_val order (fl t0) d (x t0) (y t0) dx dy).
Proof.
  intros (DV & DM & Drho & Dg) [HM HV] Dx Dy.
  pose proof (der_pressure order (fun s => fV (fl s)) (fun s => fM (fl s)) (fun s => frho (fl s)) (fun s => fgam (fl s)) x y _ _ _ _ _ _ t0 DV DM Drho Dg Dx Dy HM HV) as H.
  rewrite !flow_eta in H. exact (der_fun _ _ _ _ (fun s => f_equal (fun z => pressure_val order z (x s) (y s)) (flow_eta (fl s))) H).
Qed.
Lemma still_flow fl (t0 : R) : flow_derivative (fun _ => fl) (mkFlow 0 0 0 0) t0.
Proof. split; [|split; [|split]]; apply der_const. Qed.
Lemma px_eq order fl x y : dpdx_val order fl x y = pressure_der_val order fl (mkFlow 0 0 0 0) x y 1 0.
Proof. unfold dpdx_val, pressure_der_val. cbn [fV fM frho fgam]. cbv zeta. destruct order as [|[|[|[|o]]]]; cbn [by_order]; unfold Rdiv; ring. Qed.
Lemma pxd_eq order fl x y : dpdxdot_val order fl x y = pressure_der_val order fl (mkFlow 0 0 0 0) x y 0 1.
Proof. unfold dpdxdot_val, pressure_der_val. cbn [fV fM frho fgam]. cbv zeta. destruct order as [|[|[|[|o]]]]; cbn [by_order]; unfold Rdiv; ring. Qed.
Lemma idd (x : R) : is_derive (fun z : R => z) x 1. Proof. apply (@is_derive_id R_AbsRing). Qed.
Lemma partial_x order fl x y : supersonic fl -> is_derive (fun z => piston order fl (downwash fl z y)) x (dpdx_val order fl x y).
Proof.
  intros H. apply (der_fun (fun z => pressure_val order fl z y)); [intros; now apply pressure_eq|]. rewrite px_eq.
  exact (der_flow order (fun _ => fl) _ (fun z => z) (fun _ => y) 1 0 x (still_flow fl x) H (idd x) (der_const y x)).
Qed.
Lemma partial_xd order fl x y : supersonic fl -> is_derive (fun z => piston order fl (downwash fl x z)) y (dpdxdot_val order fl x y).
Proof.
  intros H. apply (der_fun (fun z => pressure_val order fl x z)); [intros; now apply pressure_eq|]. rewrite pxd_eq.
  exact (der_flow order (fun _ => fl) _ (fun _ => x) (fun z => z) 0 1 y (still_flow fl y) H (der_const x y) (idd y)).
Qed.
Theorem C156_partials : forall order fl dwdx dwdt, supersonic fl -> exists a b,
  dpressure_dx order fl dwdx dwdt = Ok a /\ dpressure_dxdot order fl dwdx dwdt = Ok b /\
  is_derive (fun z => piston order fl (downwash fl z dwdt)) dwdx a /\ is_derive (fun z => piston order fl (downwash fl dwdx z)) dwdt b.
Proof.
  intros order fl x y H. exists (dpdx_val order fl x y), (dpdxdot_val order fl x y). unfold dpressure_dx, dpressure_dxdot. rewrite !finite_ok by auto.
  split; [reflexivity|]. split; [reflexivity|]. split; [now apply partial_x|now apply partial_xd].
Qed.
Print Assumptions C156_partials.
(** a parameter may move the flow, the slope and the velocity at the same time *)
Theorem C156_parameter : forall order (fl : R -> flow) d (x y : R -> R) dx dy (t0 : R), flow_derivative fl d t0 -> supersonic (fl t0) ->
  is_derive x t0 dx -> is_derive y t0 dy -> exists a, pressure_derivative order (fl t0) d (x t0) (y t0) dx dy = Ok a /\
  is_derive (fun s => piston order (fl s) (downwash (fl s) (x s) (y s))) t0 a.
Proof.
  intros order fl d x y dx dy t0 D H Dx Dy. eexists. split; [unfold pressure_derivative; now rewrite finite_ok by auto|].
  apply (is_derive_ext_loc (fun s => pressure_val order (fl s) (x s) (y s))); [|now apply der_flow].
  apply (filter_imp (fun s => supersonic (fl s))); [|now apply (near_supersonic fl d)]. intros s Hs. now apply pressure_eq.
Qed.
Print Assumptions C156_parameter.
Lemma der_flow_x order (fl : R -> flow) d (x y t0 : R) : flow_derivative fl d t0 -> supersonic (fl t0) ->
  is_derive (fun s => dpdx_val order (fl s) x y) t0 (dpdx_der_val order (fl t0) d x y).
Proof.
  intros (DV & DM & Drho & Dg) [HM HV].
  pose proof (der_dpdx order (fun s => fV (fl s)) (fun s => fM (fl s)) (fun s => frho (fl s)) (fun s => fgam (fl s)) _ _ _ _ t0 DV DM Drho Dg HM HV x y) as H.
  rewrite !flow_eta in H. exact (der_fun _ _ _ _ (fun s => f_equal (fun z => dpdx_val order z x y) (flow_eta (fl s))) H).
Qed.
Lemma der_flow_xd order (fl : R -> flow) d (x y t0 : R) : flow_derivative fl d t0 -> supersonic (fl t0) ->
  is_derive (fun s => dpdxdot_val order (fl s) x y) t0 (dpdxdot_der_val order (fl t0) d x y).
Proof.
  intros (DV & DM & Drho & Dg) [HM HV].
  pose proof (der_dpdxdot order (fun s => fV (fl s)) (fun s => fM (fl s)) (fun s => frho (fl s)) (fun s => fgam (fl s)) _ _ _ _ t0 DV DM Drho Dg HM HV x y) as H.
  rewrite !flow_eta in H. exact (der_fun _ _ _ _ (fun s => f_equal (fun z => dpdxdot_val order z x y) (flow_eta (fl s))) H).
Qed.
Theorem C156_mixed : forall order (fl : R -> flow) d (x y t0 : R), flow_derivative fl d t0 -> supersonic (fl t0) -> exists a b,
  dpressure_dx_derivative order (fl t0) d x y = Ok a /\ dpressure_dxdot_derivative order (fl t0) d x y = Ok b /\
  is_derive (fun s => Derive (fun z => piston order (fl s) (downwash (fl s) z y)) x) t0 a /\
  is_derive (fun s => Derive (fun z => piston order (fl s) (downwash (fl s) x z)) y) t0 b.
Proof.
  intros order fl d x y t0 D H. exists (dpdx_der_val order (fl t0) d x y), (dpdxdot_der_val order (fl t0) d x y).
  unfold dpressure_dx_derivative, dpressure_dxdot_derivative. rewrite !finite_ok by auto. split; [reflexivity|]. split; [reflexivity|].
  pose proof (near_supersonic fl d t0 D H) as N. split.
  - apply (is_derive_ext_loc (fun s => dpdx_val order (fl s) x y)); [|now apply der_flow_x]. revert N. apply filter_imp. intros s Hs. symmetry. now apply is_derive_unique, partial_x.
  - apply (is_derive_ext_loc (fun s => dpdxdot_val order (fl s) x y)); [|now apply der_flow_xd]. revert N. apply filter_imp. intros s Hs. symmetry. now apply is_derive_unique, partial_xd.
Qed.
Print Assumptions C156_mixed.
(** at subsonic and sonic speed no number comes out *)
Theorem C156_subsonic : forall order fl d x y xd yd, ~ 1 < fM fl ^ 2 ->
  pressure order fl x y = Fault DivByZero /\ pressure_derivative order fl d x y xd yd = Fault DivByZero /\
  dpressure_dx order fl x y = Fault DivByZero /\ dpressure_dxdot order fl x y = Fault DivByZero /\
  dpressure_dx_derivative order fl d x y = Fault DivByZero /\ dpressure_dxdot_derivative order fl d x y = Fault DivByZero.
Proof.
  intros order fl d x y xd yd H. unfold pressure, pressure_derivative, dpressure_dx, dpressure_dxdot, dpressure_dx_derivative, dpressure_dxdot_derivative, finite.
  destruct (rltb 1 (fM fl * fM fl)) eqn:E; [|repeat split]. apply rltb_true in E. exfalso. apply H. nra.
Qed.
Print Assumptions C156_subsonic.
(** the direction of the flow is a unit vector whatever vector the user gives *)
Theorem C156_direction : forall v : nat -> R, 0 < sum 3 (fun i => v i * v i) -> sum 3 (fun i => normalize v i * normalize v i) = 1 /\
  exists c, 0 < c /\ forall k, v k = c * normalize v k.
Proof.
  intros v H. set (z := sum 3 (fun i => v i * v i)). fold z in H. pose proof (sqrt_lt_R0 z H) as Hs.
  assert (E : forall k, normalize v k = v k / sqrt z). { intros k. unfold normalize. fold z. destruct (rltb 0 z) eqn:E; [reflexivity|apply rltb_false in E; lra]. }
  split.
  - rewrite (sum_ext _ _ (fun i => (v i * v i) * / z)).
    + rewrite sum_scal_r. fold z. field. lra.
    + intros i _. rewrite !E. rewrite <- (sqrt_sqrt z) at 3 by lra. field. lra.
  - exists (sqrt z). split; [exact Hs|]. intros k. rewrite E. field. lra.
Qed.
Print Assumptions C156_direction.
Definition flow0 : flow := mkFlow 2 2 1 (7/5).
Lemma flow0_super : supersonic flow0. Proof. split; cbn; lra. Qed.
Example C156_example : supersonic flow0 /\ flow_derivative (fun s => mkFlow 2 (1 + s) 1 (7/5)) (mkFlow 0 1 0 0) 1 /\
  pressure 2 flow0 (1/2) 3 = Ok (4 / sqrt 3 * (3/2 + 6/5 * (3/2) ^ 2)) /\ 0 < sum 3 (fun i => INR i * INR i).
Proof.
  split; [apply flow0_super|]. split; [|split].
  - unfold flow_derivative. cbn [fV fM frho fgam]. (split; [|split; [|split]]); auto_derive; try exact I; ring.
  - rewrite C156_value by apply flow0_super. unfold piston, downwash, flow0. cbn [fV fM frho fgam Nat.eqb orb].
    replace (2 ^ 2 - 1) with 3 by ring. f_equal. assert (0 < sqrt 3) by (apply sqrt_lt_R0; lra). field. lra.
  - cbn. lra.
Qed.

(** C157: piston theory on plates *)
Section Plate.
Variables (n order : nat) (T : nat -> nat -> R) (dir : nat -> R) (qs : list qpt) (fl : qpt -> flow).
Hypothesis SS : forall q, In q qs -> supersonic (fl q).
Lemma values_p q x y : In q qs -> pf (values order (fl q)) x y = Ok (piston order (fl q) (downwash (fl q) x y)).
Proof. intros. apply C156_value. now apply SS. Qed.
Lemma values_x q x y : In q qs -> px (values order (fl q)) x y = Ok (dpdx_val order (fl q) x y).
Proof. intros H. cbn [values px]. unfold dpressure_dx. now rewrite finite_ok by (now apply SS). Qed.
Lemma values_xd q x y : In q qs -> pxd (values order (fl q)) x y = Ok (dpdxdot_val order (fl q) x y).
Proof. intros H. cbn [values pxd]. unfold dpressure_dxdot. now rewrite finite_ok by (now apply SS). Qed.
Definition ppress U Ud q := piston order (fl q) (downwash (fl q) (slope_along n q (Some T) dir U) (value n q (in_axes (Some T) Ud) 2)).
Definition plate_ok U Ud req f jx j := piston2_ok n (fun q => values order (fl q)) qs _ _ _ values_p values_x values_xd T dir U Ud req f jx j.
Definition beam_ok t U Ud req f jx j := piston1_ok n (fun q => values order (fl q)) qs _ _ _ values_p values_x values_xd t U Ud req f jx j.
Lemma plate_carries U Ud req f jx j f' jx' j' : piston2 n false (Some T) (fun q => values order (fl q)) dir qs U Ud req (f, jx, j) = Ok (f', jx', j') ->
  carries n qs (Some T) (fun q => pressure_force 2 (ppress U Ud q)) f f'.
Proof. destruct (plate_ok U Ud req f jx j) as (g & gx & gj & E & C & _). intros K. rewrite E in K. injection K as <- <- <-. exact C. Qed.
Lemma plate_jx U Ud f jx j f' jx' j' : piston2 n false (Some T) (fun q => values order (fl q)) dir qs U Ud true (f, jx, j) = Ok (f', jx', j') -> forall d v,
  bil n (minusj jx' jx) d v = integral qs (fun q => dpdxdot_val order (fl q) (slope_along n q (Some T) dir U) (value n q (in_axes (Some T) Ud) 2)
    * value n q (in_axes (Some T) d) 2 * value n q (in_axes (Some T) v) 2).
Proof. destruct (plate_ok U Ud true f jx j) as (g & gx & gj & E & _ & C & _). intros K. rewrite E in K. injection K as <- <- <-. exact (C eq_refl). Qed.
Lemma plate_j U Ud f jx j f' jx' j' : piston2 n false (Some T) (fun q => values order (fl q)) dir qs U Ud true (f, jx, j) = Ok (f', jx', j') -> forall d v,
  bil n (minusj j' j) d v = integral qs (fun q => dpdx_val order (fl q) (slope_along n q (Some T) dir U) (value n q (in_axes (Some T) Ud) 2)
    * value n q (in_axes (Some T) d) 2 * (vec_in_axes (Some T) dir 0 * grad n q (in_axes (Some T) v) 2 0)).
Proof. destruct (plate_ok U Ud true f jx j) as (g & gx & gj & E & _ & _ & C & _). intros K. rewrite E in K. injection K as <- <- <-. exact (C eq_refl). Qed.
End Plate.
Arguments ppress n order T dir fl U Ud q : clear implicits.

Theorem C157_load : forall n order T dir qs fl U Ud req f jx j, (forall q, In q qs -> supersonic (fl q)) -> exists f' jx' j',
  piston2 n false (Some T) (fun q => values order (fl q)) dir qs U Ud req (f, jx, j) = Ok (f', jx', j') /\
  carries n qs (Some T) (fun q => pressure_force 2 (piston order (fl q) (downwash (fl q) (slope_along n q (Some T) dir U) (value n q (in_axes (Some T) Ud) 2)))) f f'.
Proof.
  intros n order T dir qs fl U Ud req f jx j SS. destruct (plate_ok n order T dir qs fl SS U Ud req f jx j) as (g & gx & gj & E & C & _). exists g, gx, gj. split; [exact E|exact C].
Qed.
Print Assumptions C157_load.
Lemma value_der n q c (U : R -> dofs) dU (t0 : R) t : (c < 6)%nat -> history6 n t0 U dU -> is_derive (fun s => value n q (in_axes t (U s)) c) t0 (value n q (in_axes t dU) c).
Proof.
  intros Hc H. rewrite in_axes_eq. apply (der_fun (fun s => value n q (to_local t (U s)) c)); [intros; now rewrite in_axes_eq|].
  unfold value. apply der_sum. intros a Ha. apply der_scal. now apply (history_local n t U dU t0 H).
Qed.
Lemma grad_der n q c i (U : R -> dofs) dU (t0 : R) t : (c < 6)%nat -> history6 n t0 U dU -> is_derive (fun s => grad n q (in_axes t (U s)) c i) t0 (grad n q (in_axes t dU) c i).
Proof.
  intros Hc H. rewrite in_axes_eq. apply (der_fun (fun s => grad n q (to_local t (U s)) c i)); [intros; now rewrite in_axes_eq|].
  unfold grad. apply der_sum. intros a Ha. apply der_scal. now apply (history_local n t U dU t0 H).
Qed.
Lemma slope_der n q dir (U : R -> dofs) dU (t0 : R) t : history6 n t0 U dU -> is_derive (fun s => slope_along n q t dir (U s)) t0 (slope_along n q t dir dU).
Proof. intros H. unfold slope_along. apply der_sum. intros i _. apply der_scal. apply grad_der; [lia|exact H]. Qed.
(** a matrix with the work of a force that depends linearly on the direction *)
Lemma der_matrix n qs t (force : R -> qpt -> nat -> R) dforce f (F : R -> dofs) J dU (t0 : R) :
  (forall s, carries n qs t (force s) f (F s)) ->
  (forall d, bil n J d dU = - force_work n qs t dforce d) ->
  (forall q k, In q qs -> (k < 3)%nat -> is_derive (fun s => force s q k) t0 (dforce q k)) ->
  forall c a, (c < 6)%nat -> (a < n)%nat -> is_derive (fun s => F s c a) t0 (times6 n J dU c a).
Proof.
  intros C B D c a Hc Ha. eapply der_eq; [apply (der_carries n qs t force dforce f zf F (times6 n J dU) t0 C); auto|unfold zf; ring].
  intros d. rewrite dot_minusf, dot_zf. unfold bil in B. rewrite B. ring.
Qed.
Lemma der_press k dim (g : R -> R) dg (t0 : R) : is_derive g t0 dg -> is_derive (fun s => pressure_force dim (g s) k) t0 (pressure_force dim dg k).
Proof.
  intros D. unfold pressure_force. destruct (Nat.eqb k dim); [|apply (der_const 0)]. apply (der_fun (fun s => -1 * g s)); [intros; ring|]. eapply der_sc; [exact D|ring].
Qed.
Lemma work_press n qs t dim g d : (dim < 3)%nat -> force_work n qs t (fun q => pressure_force dim (g q)) d = - integral qs (fun q => g q * value n q (in_axes t d) dim).
Proof.
  intros Hd. unfold force_work. rewrite (integral_ext qs _ (fun q => -1 * (g q * value n q (in_axes t d) dim))); [rewrite integral_mul; ring|].
  intros q _. rewrite (sum_single 3 dim); auto; unfold pressure_force; [rewrite Nat.eqb_refl; ring|]. intros k _ Hk. destruct (Nat.eqb_spec k dim); [lia|ring].
Qed.
Theorem C157_damping : forall n order T dir qs fl U (Ud : R -> dofs) dUd (t0 : R) req f jx j F JX J f0 jx0 j0 f' jx' j' c a, (forall q, In q qs -> supersonic (fl q)) ->
  (forall s, piston2 n false (Some T) (fun q => values order (fl q)) dir qs U (Ud s) req (f, jx, j) = Ok (F s, JX s, J s)) ->
  piston2 n false (Some T) (fun q => values order (fl q)) dir qs U (Ud t0) true (f0, jx0, j0) = Ok (f', jx', j') ->
  history6 n t0 Ud dUd -> (c < 6)%nat -> (a < n)%nat -> is_derive (fun s => F s c a) t0 (times6 n (minusj jx' jx0) dUd c a).
Proof.
  intros n order T dir qs fl U Ud dUd t0 req f jx j F JX J f0 jx0 j0 f' jx' j' c a SS E E' H Hc Ha.
  apply (der_matrix n qs (Some T) (fun s q => pressure_force 2 (ppress n order T dir fl U (Ud s) q))
    (fun q => pressure_force 2 (dpdxdot_val order (fl q) (slope_along n q (Some T) dir U) (value n q (in_axes (Some T) (Ud t0)) 2) * value n q (in_axes (Some T) dUd) 2)) f F); auto.
  - intros s. exact (plate_carries n order T dir qs fl SS _ _ _ _ _ _ _ _ _ (E s)).
  - intros d. rewrite (plate_jx n order T dir qs fl SS _ _ _ _ _ _ _ _ E'), work_press by lia. rewrite Ropp_involutive. apply integral_ext. intros; ring.
  - intros q k Hq _. apply (der_press k 2 (fun s => ppress n order T dir fl U (Ud s) q)). unfold ppress.
    rewrite Rmult_comm. apply (is_derive_comp (fun z => piston order (fl q) (downwash (fl q) (slope_along n q (Some T) dir U) z)) (fun s => value n q (in_axes (Some T) (Ud s)) 2)).
    + apply partial_xd. now apply SS.
    + apply value_der; [lia|exact H].
Qed.
Print Assumptions C157_damping.
(** the derivative with respect to the displacement lacks the component of the flow along the second axis of the element *)
Theorem C157_stiffness_partial : forall n order T dir qs fl (U : R -> dofs) dU Ud (t0 : R) req f jx j F JX J f0 jx0 j0 f' jx' j' c a, (forall q, In q qs -> supersonic (fl q)) ->
  (forall s, piston2 n false (Some T) (fun q => values order (fl q)) dir qs (U s) Ud req (f, jx, j) = Ok (F s, JX s, J s)) ->
  piston2 n false (Some T) (fun q => values order (fl q)) dir qs (U t0) Ud true (f0, jx0, j0) = Ok (f', jx', j') ->
  history6 n t0 U dU -> (c < 6)%nat -> (a < n)%nat -> is_derive (fun s => F s c a) t0 (times6 n (minusj j' j0) dU c a
    + integral qs (fun q => Derive (fun z => piston order (fl q) (downwash (fl q) z (value n q (in_axes (Some T) Ud) 2))) (slope_along n q (Some T) dir (U t0))
        * (vec_in_axes (Some T) dir 1 * grad n q (in_axes (Some T) dU) 2 1) * value n q (in_axes (Some T) (unit_dof c a)) 2)).
Proof.
  intros n order T dir qs fl U dU Ud t0 req f jx j F JX J f0 jx0 j0 f' jx' j' c a SS E E' H Hc Ha.
  set (D := fun q => dpdx_val order (fl q) (slope_along n q (Some T) dir (U t0)) (value n q (in_axes (Some T) Ud) 2)).
  pose proof (der_carries n qs (Some T) (fun s q => pressure_force 2 (ppress n order T dir fl (U s) Ud q))
    (fun q => pressure_force 2 (D q * slope_along n q (Some T) dir dU)) f zf F
    (plusf (- 1) (to_global (Some T) (nodal qs jxw (fun q => force3 (pressure_force 2 (D q * slope_along n q (Some T) dir dU))))) zf) t0) as K.
  eapply der_eq; [apply K; auto; [|apply carries_ok|]|].
  - intros s. exact (plate_carries n order T dir qs fl SS _ _ _ _ _ _ _ _ _ (E s)).
  - intros q k Hq _. apply (der_press k 2 (fun s => ppress n order T dir fl (U s) Ud q)). unfold ppress.
    rewrite Rmult_comm. apply (is_derive_comp (fun z => piston order (fl q) (downwash (fl q) z (value n q (in_axes (Some T) Ud) 2))) (fun s => slope_along n q (Some T) dir (U s))).
    + apply partial_x. now apply SS.
    + apply slope_der. exact H.
  - rewrite (carries_entry n _ _ _ _ _ c a (carries_ok n qs (Some T) _ zf) Hc Ha). rewrite times_bil, (plate_j n order T dir qs fl SS _ _ _ _ _ _ _ _ E'), work_press by (auto; lia). unfold zf.
    match goal with |- 0 - - ?x - 0 = _ => replace (0 - - x - 0) with x by ring end. rewrite <- integral_add.
    apply integral_ext. intros q Hq. match goal with |- context[Derive ?g ?x] => replace (Derive g x) with (D q) by (symmetry; apply is_derive_unique, partial_x; now apply SS) end. fold (D q). unfold slope_along. cbn [sum]. ring.
Qed.
Print Assumptions C157_stiffness_partial.
Theorem C157_stiffness_aligned_partial : forall n order T dir qs fl (U : R -> dofs) dU Ud (t0 : R) req f jx j F JX J f0 jx0 j0 f' jx' j' c a, (forall q, In q qs -> supersonic (fl q)) ->
  vec_in_axes (Some T) dir 1 = 0 ->
  (forall s, piston2 n false (Some T) (fun q => values order (fl q)) dir qs (U s) Ud req (f, jx, j) = Ok (F s, JX s, J s)) ->
  piston2 n false (Some T) (fun q => values order (fl q)) dir qs (U t0) Ud true (f0, jx0, j0) = Ok (f', jx', j') ->
  history6 n t0 U dU -> (c < 6)%nat -> (a < n)%nat -> is_derive (fun s => F s c a) t0 (times6 n (minusj j' j0) dU c a).
Proof.
  intros n order T dir qs fl U dU Ud t0 req f jx j F JX J f0 jx0 j0 f' jx' j' c a SS HV E E' H Hc Ha.
  eapply der_eq; [eapply (C157_stiffness_partial n order T dir qs fl U dU Ud t0 req f jx j F JX J f0 jx0 j0 f' jx' j' c a); eauto|].
  rewrite integral_0; [ring|]. intros q _. rewrite HV. ring.
Qed.
Print Assumptions C157_stiffness_aligned_partial.

Definition ident : nat -> nat -> R := fun i j => if Nat.eqb i j then 1 else 0.
Definition pq : qpt := mkQ 1 (fun _ => 0) (fun _ => 1/2) (fun a _ => match a with O => -1 | _ => 1 end) (fun _ => 0).
Lemma plate_run n order T dir qs fl U Ud req f jx j : (forall q, In q qs -> supersonic (fl q)) ->
  { r | piston2 n false (Some T) (fun q => values order (fl q)) dir qs U Ud req (f, jx, j) = Ok r }.
Proof.
  intros SS. destruct (piston2 n false (Some T) (fun q => values order (fl q)) dir qs U Ud req (f, jx, j)) as [r|e] eqn:E; [now exists r|].
  exfalso. destruct (plate_ok n order T dir qs fl SS U Ud req f jx j) as (g & gx & gj & K & _). congruence.
Qed.
(** flow along the second axis of a flat element: the matrix is zero, the load depends on the displacement *)
Theorem C157_stiffness_refuted : exists n order T dir qs fl (U : R -> dofs) dU Ud (t0 : R) F JX J f' jx' j' c a, (forall q, In q qs -> supersonic (fl q)) /\
  (forall s, piston2 n false (Some T) (fun q => values order (fl q)) dir qs (U s) Ud true (zf, zj, zj) = Ok (F s, JX s, J s)) /\
  piston2 n false (Some T) (fun q => values order (fl q)) dir qs (U t0) Ud true (zf, zj, zj) = Ok (f', jx', j') /\
  history6 n t0 U dU /\ (c < 6)%nat /\ (a < n)%nat /\ ~ is_derive (fun s => F s c a) t0 (times6 n (minusj j' zj) dU c a).
Proof.
  set (dir := fun k => if Nat.eqb k 1 then 1 else 0). set (fl := fun _ : qpt => mkFlow 1 2 1 1).
  assert (SS : forall q, In q [pq] -> supersonic (fl q)) by (intros; split; cbn; lra).
  set (run := fun s => proj1_sig (plate_run 2 1 ident dir [pq] fl (ramp 2 1 s) zf true zf zj zj SS)).
  assert (E : forall s, piston2 2 false (Some ident) (fun q => values 1 (fl q)) dir [pq] (ramp 2 1 s) zf true (zf, zj, zj) = Ok (fst (fst (run s)), snd (fst (run s)), snd (run s))).
  { intros s. unfold run. destruct (plate_run _ _ _ _ _ _ _ _ _ _ _ _ _) as [[[? ?] ?] K]. exact K. }
  exists 2%nat, 1%nat, ident, dir, [pq], fl, (ramp 2 1), (unit_dof 2 1), zf, 0, (fun s => fst (fst (run s))), (fun s => snd (fst (run s))), (fun s => snd (run s)), (fst (fst (run 0))), (snd (fst (run 0))), (snd (run 0)), 2%nat, 1%nat.
  split; [exact SS|]. split; [exact E|]. split; [apply E|]. split; [apply ramp_history|]. split; [lia|]. split; [lia|]. intros H.
  pose proof (C157_stiffness_partial 2 1 ident dir [pq] fl (ramp 2 1) (unit_dof 2 1) zf 0 true zf zj zj _ _ _ zf zj zj _ _ _ 2 1 SS E (E 0) (ramp_history _ _ _ _) ltac:(lia) ltac:(lia)) as K.
  assert (Q := eq_trans (eq_sym (is_derive_unique _ _ _ H)) (is_derive_unique _ _ _ K)). revert Q.
  rewrite integral_cons, integral_nil. match goal with |- context[Derive ?g ?x] => replace (Derive g x) with (dpdx_val 1 (fl pq) x (value 2 pq (in_axes (Some ident) zf) 2)) by (symmetry; apply is_derive_unique, partial_x; apply SS; now left) end.
  unfold dpdx_val, fl, Mf, v0, v2, grad, value, vec_in_axes, dir, in_axes, unit_dof, ident. cbn. intros Q.
  assert (0 < sqrt (2 * 2 - 1)) by (apply sqrt_lt_R0; lra). assert (0 < / sqrt (2 * 2 - 1)) by now apply Rinv_0_lt_compat. unfold Rdiv in Q. lra.
Qed.
Print Assumptions C157_stiffness_refuted.

(** derivatives with respect to a property of the flow *)
Section Sens.
Variables (n order : nat) (qs : list qpt) (fl : R -> qpt -> flow) (d : qpt -> flow) (t0 : R).
Hypothesis SS : forall s q, In q qs -> supersonic (fl s q).
Hypothesis FD : forall q, In q qs -> flow_derivative (fun s => fl s q) (d q) t0.
Lemma ders_p q x y : In q qs -> pf (derivatives order (fl t0 q) (d q)) x y = Ok (pressure_der_val order (fl t0 q) (d q) x y 0 0).
Proof. intros H. cbn [derivatives pf]. unfold pressure_derivative. now rewrite finite_ok by (now apply SS). Qed.
Lemma ders_x q x y : In q qs -> px (derivatives order (fl t0 q) (d q)) x y = Ok (dpdx_der_val order (fl t0 q) (d q) x y).
Proof. intros H. cbn [derivatives px]. unfold dpressure_dx_derivative. now rewrite finite_ok by (now apply SS). Qed.
Lemma ders_xd q x y : In q qs -> pxd (derivatives order (fl t0 q) (d q)) x y = Ok (dpdxdot_der_val order (fl t0 q) (d q) x y).
Proof. intros H. cbn [derivatives pxd]. unfold dpressure_dxdot_derivative. now rewrite finite_ok by (now apply SS). Qed.
Lemma der_p q x y : In q qs -> is_derive (fun s => piston order (fl s q) (downwash (fl s q) x y)) t0 (pressure_der_val order (fl t0 q) (d q) x y 0 0).
Proof.
  intros H. apply (der_fun (fun s => pressure_val order (fl s q) x y)); [intros s; apply pressure_eq; now apply SS|].
  exact (der_flow order (fun s => fl s q) (d q) (fun _ => x) (fun _ => y) 0 0 t0 (FD q H) (SS t0 q H) (der_const x t0) (der_const y t0)).
Qed.
Lemma der_px q x y : In q qs -> is_derive (fun s => dpdx_val order (fl s q) x y) t0 (dpdx_der_val order (fl t0 q) (d q) x y).
Proof. intros H. exact (der_flow_x order (fun s => fl s q) (d q) x y t0 (FD q H) (SS t0 q H)). Qed.
Lemma der_pxd q x y : In q qs -> is_derive (fun s => dpdxdot_val order (fl s q) x y) t0 (dpdxdot_der_val order (fl t0 q) (d q) x y).
Proof. intros H. exact (der_flow_xd order (fun s => fl s q) (d q) x y t0 (FD q H) (SS t0 q H)). Qed.
(** entries of a matrix from its bilinear form *)
Lemma der_entry (JX : R -> dmat) jx J' j0 (X : R -> qpt -> R) X' (A B : dofs -> qpt -> R) :
  (forall s v w, bil n (minusj (JX s) jx) v w = integral qs (fun q => X s q * A v q * B w q)) ->
  (forall v w, bil n (minusj J' j0) v w = integral qs (fun q => X' q * A v q * B w q)) ->
  (forall q, In q qs -> is_derive (fun s => X s q) t0 (X' q)) ->
  forall c a e b, (c < 6)%nat -> (a < n)%nat -> (e < 6)%nat -> (b < n)%nat -> is_derive (fun s => JX s c a e b) t0 (J' c a e b - j0 c a e b).
Proof.
  intros H H' D c a e b Hc Ha He Hb.
  assert (Q : forall f g, minusj f g c a e b = bil n (minusj f g) (unit_dof c a) (unit_dof e b)) by (intros; rewrite <- times_bil, times_unit by auto; reflexivity).
  change (J' c a e b - j0 c a e b) with (minusj J' j0 c a e b). rewrite Q, H'.
  apply (der_fun (fun s => jx c a e b + integral qs (fun q => X s q * A (unit_dof c a) q * B (unit_dof e b) q))).
  - intros s. rewrite <- H, <- Q. unfold minusj. ring.
  - eapply der_add; [apply der_cst; reflexivity|apply (der_int qs (fun s q => X s q * A (unit_dof c a) q * B (unit_dof e b) q) (fun q => X' q * A (unit_dof c a) q * B (unit_dof e b) q))|ring].
    intros q Hq.
    eapply der_mul; [eapply der_mul; [apply D; auto|apply der_cst; reflexivity|reflexivity]|apply der_cst; reflexivity|ring].
Qed.
End Sens.
Theorem C157_sensitivity : forall n order T dir qs (fl : R -> qpt -> flow) d (t0 : R) U Ud f jx j f0 jx0 j0 F JX J f' jx' j',
  (forall s q, In q qs -> supersonic (fl s q)) -> (forall q, In q qs -> flow_derivative (fun s => fl s q) (d q) t0) ->
  (forall s, piston2 n false (Some T) (fun q => values order (fl s q)) dir qs U Ud true (f, jx, j) = Ok (F s, JX s, J s)) ->
  piston2 n false (Some T) (fun q => derivatives order (fl t0 q) (d q)) dir qs U Ud true (f0, jx0, j0) = Ok (f', jx', j') ->
  forall c a, (c < 6)%nat -> (a < n)%nat -> is_derive (fun s => F s c a) t0 (f' c a - f0 c a) /\
  forall e b, (e < 6)%nat -> (b < n)%nat -> is_derive (fun s => JX s c a e b) t0 (jx' c a e b - jx0 c a e b) /\ is_derive (fun s => J s c a e b) t0 (j' c a e b - j0 c a e b).
Proof.
  intros n order T dir qs fl d t0 U Ud f jx j f0 jx0 j0 F JX J f' jx' j' SS FD E E' c a Hc Ha.
  destruct (piston2_ok n (fun q => derivatives order (fl t0 q) (d q)) qs _ _ _ (ders_p order qs fl d t0 SS) (ders_x order qs fl d t0 SS) (ders_xd order qs fl d t0 SS) T dir U Ud true f0 jx0 j0) as (g & gx & gj & K & K1 & K2 & K3 & _).
  rewrite E' in K. injection K as <- <- <-. specialize (K2 eq_refl). specialize (K3 eq_refl). split; [|intros e b He Hb; split].
  - apply (der_carries n qs (Some T) (fun s q => pressure_force 2 (ppress n order T dir (fl s) U Ud q)) _ f f0 F f' t0 (fun s => plate_carries n order T dir qs (fl s) (SS s) _ _ _ _ _ _ _ _ _ (E s)) K1); auto.
    intros q k Hq _. apply (der_press k 2 (fun s => ppress n order T dir (fl s) U Ud q)). unfold ppress. now apply (der_p order qs fl d t0 SS FD).
  - exact (der_entry n qs t0 JX jx jx' jx0 _ _ _ _ (fun s => plate_jx n order T dir qs (fl s) (SS s) _ _ _ _ _ _ _ _ (E s)) K2 (fun q Hq => der_pxd order qs fl d t0 SS FD q _ _ Hq) c a e b Hc Ha He Hb).
  - exact (der_entry n qs t0 J j j' j0 _ _ _ _ (fun s => plate_j n order T dir qs (fl s) (SS s) _ _ _ _ _ _ _ _ (E s)) K3 (fun q Hq => der_px order qs fl d t0 SS FD q _ _ Hq) c a e b Hc Ha He Hb).
Qed.
Print Assumptions C157_sensitivity.
(** plates without axes of their own, edges and follower forces are refused, not ignored *)
Theorem C157_refused : forall n t pr dir qs U Ud req fj, piston2 n true t pr dir qs U Ud req fj = Fault AssertFailed /\
  piston2 n false None pr dir qs U Ud req fj = Fault AssertFailed /\ piston_side fj = Fault AssertFailed /\ piston1 n true t pr qs U Ud req fj = Fault AssertFailed.
Proof. repeat split. Qed.
Print Assumptions C157_refused.
Example C157_example : (forall q, In q [pq] -> supersonic flow0) /\ vec_in_axes (Some ident) (fun k => if Nat.eqb k 0 then 1 else 0) 1 = 0 /\
  history6 2 1 (ramp 2 1) (unit_dof 2 1) /\
  exists r, piston2 2 false (Some ident) (fun _ => values 1 flow0) (fun k => if Nat.eqb k 0 then 1 else 0) [pq] (ramp 2 1 1) zf true (zf, zj, zj) = Ok r /\
    fst (fst r) 2%nat 0%nat = 2 / sqrt 3.
Proof.
  split; [intros; apply flow0_super|]. split; [cbn; lra|]. split; [apply ramp_history|].
  destruct (C157_load 2 1 ident (fun k => if Nat.eqb k 0 then 1 else 0) [pq] (fun _ => flow0) (ramp 2 1 1) zf true zf zj zj (fun _ _ => flow0_super)) as (f' & jx' & j' & E & C).
  exists (f', jx', j'). split; [exact E|]. cbn [fst]. rewrite (carries_entry 2 _ _ _ _ _ 2 0 C) by lia. rewrite work_press by lia. rewrite integral_cons, integral_nil.
  unfold piston, downwash, slope_along, grad, value, in_axes, vec_in_axes, ident, ramp, unit_dof, zf, flow0, pq. cbn [fV fM frho fgam Nat.eqb orb sum]. cbn -[sqrt pow].
  replace (2 ^ 2 - 1) with 3 by ring. assert (0 < sqrt 3) by (apply sqrt_lt_R0; lra). field. lra.
Qed.

(** C158: piston theory on beams *)
Lemma dx_der n q c (U : R -> dofs) dU (t0 : R) t : (c < 6)%nat -> history6 n t0 U dU -> is_derive (fun s => dx n q (in_axes t (U s)) c) t0 (dx n q (in_axes t dU) c).
Proof. exact (grad_der n q c 0 U dU t0 t). Qed.
Theorem C158_load_partial : forall n order t qs fl U Ud req f jx j, (forall q, In q qs -> supersonic (fl q)) -> exists f' jx' j',
  piston1 n false t (fun q => values order (fl q)) qs U Ud req (f, jx, j) = Ok (f', jx', j') /\
  carries n qs t (fun q => pressure_force 1 (piston order (fl q) (downwash (fl q) (dx n q (in_axes t U) 1) (value n q (in_axes t Ud) 1)))) f f'.
Proof.
  intros n order t qs fl U Ud req f jx j SS. destruct (beam_ok n order qs fl SS t U Ud req f jx j) as (g & gx & gj & E & C & _). exists g, gx, gj. split; [exact E|exact C].
Qed.
Print Assumptions C158_load_partial.
Section Beam.
Variables (n order : nat) (t : frame) (qs : list qpt) (fl : qpt -> flow).
Hypothesis SS : forall q, In q qs -> supersonic (fl q).
Lemma beam_carries U Ud req f jx j f' jx' j' : piston1 n false t (fun q => values order (fl q)) qs U Ud req (f, jx, j) = Ok (f', jx', j') ->
  carries n qs t (fun q => pressure_force 1 (piston order (fl q) (downwash (fl q) (dx n q (in_axes t U) 1) (value n q (in_axes t Ud) 1)))) f f'.
Proof. destruct (beam_ok n order qs fl SS t U Ud req f jx j) as (g & gx & gj & E & C & _). intros K. rewrite E in K. injection K as <- <- <-. exact C. Qed.
Lemma beam_jx U Ud f jx j f' jx' j' : piston1 n false t (fun q => values order (fl q)) qs U Ud true (f, jx, j) = Ok (f', jx', j') -> forall d v,
  bil n (minusj jx' jx) d v = integral qs (fun q => dpdxdot_val order (fl q) (dx n q (in_axes t U) 1) (value n q (in_axes t Ud) 1)
    * value n q (in_axes t d) 1 * value n q (in_axes t v) 1).
Proof. destruct (beam_ok n order qs fl SS t U Ud true f jx j) as (g & gx & gj & E & _ & C & _). intros K. rewrite E in K. injection K as <- <- <-. exact (C eq_refl). Qed.
Lemma beam_j U Ud f jx j f' jx' j' : piston1 n false t (fun q => values order (fl q)) qs U Ud true (f, jx, j) = Ok (f', jx', j') -> forall d v,
  bil n (minusj j' j) d v = integral qs (fun q => dpdx_val order (fl q) (dx n q (in_axes t U) 1) (value n q (in_axes t Ud) 1)
    * value n q (in_axes t d) 1 * dx n q (in_axes t v) 1).
Proof. destruct (beam_ok n order qs fl SS t U Ud true f jx j) as (g & gx & gj & E & _ & _ & C & _). intros K. rewrite E in K. injection K as <- <- <-. exact (C eq_refl). Qed.
End Beam.
Theorem C158_damping : forall n order t qs fl U (Ud : R -> dofs) dUd (t0 : R) req f jx j F JX J f0 jx0 j0 f' jx' j' c a, (forall q, In q qs -> supersonic (fl q)) ->
  (forall s, piston1 n false t (fun q => values order (fl q)) qs U (Ud s) req (f, jx, j) = Ok (F s, JX s, J s)) ->
  piston1 n false t (fun q => values order (fl q)) qs U (Ud t0) true (f0, jx0, j0) = Ok (f', jx', j') ->
  history6 n t0 Ud dUd -> (c < 6)%nat -> (a < n)%nat -> is_derive (fun s => F s c a) t0 (times6 n (minusj jx' jx0) dUd c a).
Proof.
  intros n order t qs fl U Ud dUd t0 req f jx j F JX J f0 jx0 j0 f' jx' j' c a SS E E' H Hc Ha.
  apply (der_matrix n qs t (fun s q => pressure_force 1 (piston order (fl q) (downwash (fl q) (dx n q (in_axes t U) 1) (value n q (in_axes t (Ud s)) 1))))
    (fun q => pressure_force 1 (dpdxdot_val order (fl q) (dx n q (in_axes t U) 1) (value n q (in_axes t (Ud t0)) 1) * value n q (in_axes t dUd) 1)) f F); auto.
  - intros s. exact (beam_carries n order t qs fl SS _ _ _ _ _ _ _ _ _ (E s)).
  - intros d. rewrite (beam_jx n order t qs fl SS _ _ _ _ _ _ _ _ E'), work_press by lia. rewrite Ropp_involutive. apply integral_ext. intros; ring.
  - intros q k Hq _. apply (der_press k 1 (fun s => piston order (fl q) (downwash (fl q) (dx n q (in_axes t U) 1) (value n q (in_axes t (Ud s)) 1)))).
    rewrite Rmult_comm. apply (is_derive_comp (fun z => piston order (fl q) (downwash (fl q) (dx n q (in_axes t U) 1) z)) (fun s => value n q (in_axes t (Ud s)) 1)).
    + apply partial_xd. now apply SS.
    + apply value_der; [lia|exact H].
Qed.
Print Assumptions C158_damping.
Theorem C158_stiffness : forall n order t qs fl (U : R -> dofs) dU Ud (t0 : R) req f jx j F JX J f0 jx0 j0 f' jx' j' c a, (forall q, In q qs -> supersonic (fl q)) ->
  (forall s, piston1 n false t (fun q => values order (fl q)) qs (U s) Ud req (f, jx, j) = Ok (F s, JX s, J s)) ->
  piston1 n false t (fun q => values order (fl q)) qs (U t0) Ud true (f0, jx0, j0) = Ok (f', jx', j') ->
  history6 n t0 U dU -> (c < 6)%nat -> (a < n)%nat -> is_derive (fun s => F s c a) t0 (times6 n (minusj j' j0) dU c a).
Proof.
  intros n order t qs fl U dU Ud t0 req f jx j F JX J f0 jx0 j0 f' jx' j' c a SS E E' H Hc Ha.
  apply (der_matrix n qs t (fun s q => pressure_force 1 (piston order (fl q) (downwash (fl q) (dx n q (in_axes t (U s)) 1) (value n q (in_axes t Ud) 1))))
    (fun q => pressure_force 1 (dpdx_val order (fl q) (dx n q (in_axes t (U t0)) 1) (value n q (in_axes t Ud) 1) * dx n q (in_axes t dU) 1)) f F); auto.
  - intros s. exact (beam_carries n order t qs fl SS _ _ _ _ _ _ _ _ _ (E s)).
  - intros d. rewrite (beam_j n order t qs fl SS _ _ _ _ _ _ _ _ E'), work_press by lia. rewrite Ropp_involutive. apply integral_ext. intros; ring.
  - intros q k Hq _. apply (der_press k 1 (fun s => piston order (fl q) (downwash (fl q) (dx n q (in_axes t (U s)) 1) (value n q (in_axes t Ud) 1)))).
    rewrite Rmult_comm. apply (is_derive_comp (fun z => piston order (fl q) (downwash (fl q) z (value n q (in_axes t Ud) 1))) (fun s => dx n q (in_axes t (U s)) 1)).
    + apply partial_x. now apply SS.
    + apply dx_der; [lia|exact H].
Qed.
Print Assumptions C158_stiffness.
Theorem C158_sensitivity : forall n order t qs (fl : R -> qpt -> flow) d (t0 : R) U Ud f jx j f0 jx0 j0 F JX J f' jx' j',
  (forall s q, In q qs -> supersonic (fl s q)) -> (forall q, In q qs -> flow_derivative (fun s => fl s q) (d q) t0) ->
  (forall s, piston1 n false t (fun q => values order (fl s q)) qs U Ud true (f, jx, j) = Ok (F s, JX s, J s)) ->
  piston1 n false t (fun q => derivatives order (fl t0 q) (d q)) qs U Ud true (f0, jx0, j0) = Ok (f', jx', j') ->
  forall c a, (c < 6)%nat -> (a < n)%nat -> is_derive (fun s => F s c a) t0 (f' c a - f0 c a) /\
  forall e b, (e < 6)%nat -> (b < n)%nat -> is_derive (fun s => JX s c a e b) t0 (jx' c a e b - jx0 c a e b) /\ is_derive (fun s => J s c a e b) t0 (j' c a e b - j0 c a e b).
Proof.
  intros n order t qs fl d t0 U Ud f jx j f0 jx0 j0 F JX J f' jx' j' SS FD E E' c a Hc Ha.
  destruct (piston1_ok n (fun q => derivatives order (fl t0 q) (d q)) qs _ _ _ (ders_p order qs fl d t0 SS) (ders_x order qs fl d t0 SS) (ders_xd order qs fl d t0 SS) t U Ud true f0 jx0 j0) as (g & gx & gj & K & K1 & K2 & K3 & _).
  rewrite E' in K. injection K as <- <- <-. specialize (K2 eq_refl). specialize (K3 eq_refl). split; [|intros e b He Hb; split].
  - apply (der_carries n qs t _ _ f f0 F f' t0 (fun s => beam_carries n order t qs (fl s) (SS s) _ _ _ _ _ _ _ _ _ (E s)) K1); auto.
    intros q k Hq _. apply (der_press k 1 (fun s => piston order (fl s q) (downwash (fl s q) (dx n q (in_axes t U) 1) (value n q (in_axes t Ud) 1)))). now apply (der_p order qs fl d t0 SS FD).
  - exact (der_entry n qs t0 JX jx jx' jx0 _ _ _ _ (fun s => beam_jx n order t qs (fl s) (SS s) _ _ _ _ _ _ _ _ (E s)) K2 (fun q Hq => der_pxd order qs fl d t0 SS FD q _ _ Hq) c a e b Hc Ha He Hb).
  - exact (der_entry n qs t0 J j j' j0 _ _ _ _ (fun s => beam_j n order t qs (fl s) (SS s) _ _ _ _ _ _ _ _ (E s)) K3 (fun q Hq => der_px order qs fl d t0 SS FD q _ _ Hq) c a e b Hc Ha He Hb).
Qed.
Print Assumptions C158_sensitivity.
(** deflection along the third axis of the beam is not felt: it gives the load of a beam at rest, whatever the flow *)
Theorem C158_deflection_refuted : exists n order qs fl U f', (forall q, In q qs -> supersonic (fl q)) /\
  (forall q, In q qs -> dx n q (in_axes None U) 2 <> 0) /\
  piston1 n false None (fun q => values order (fl q)) qs U zf false (zf, zj, zj) = Ok (f', zj, zj) /\ forall c a, (c < 6)%nat -> (a < n)%nat -> f' c a = 0.
Proof.
  assert (SS : forall q, In q [q0 1] -> supersonic flow0) by (intros; apply flow0_super).
  destruct (beam_ok 2 1 [q0 1] (fun _ => flow0) SS None (ramp 2 1 1) zf false zf zj zj) as (f' & jx' & j' & E & C & _ & _ & N). destruct (N eq_refl) as [-> ->].
  exists 2%nat, 1%nat, [q0 1], (fun _ => flow0), (ramp 2 1 1), f'. split; [exact SS|]. split; [|split; [exact E|]].
  - intros q [<-|[]]. unfold dx, in_axes, ramp. cbn. intros K. lra.
  - intros c a Hc Ha. rewrite (carries_entry 2 _ _ _ _ _ c a C) by lia. rewrite work_press by lia. rewrite integral_cons, integral_nil.
    unfold piston, downwash, dx, value, in_axes, ramp, zf. cbn [q0 dphi phi sum Nat.eqb andb orb jxw]. unfold Rdiv. ring.
Qed.
Print Assumptions C158_deflection_refuted.
Example C158_example : (forall q, In q [q0 2] -> supersonic flow0) /\ history6 2 1 (ramp 1 1) (unit_dof 1 1) /\
  exists r, piston1 2 false None (fun _ => values 2 flow0) [q0 2] (ramp 1 1 1) zf true (zf, zj, zj) = Ok r /\ fst (fst r) 1%nat 0%nat = 4 / sqrt 3 * (1 + 6/5).
Proof.
  split; [intros; apply flow0_super|]. split; [apply ramp_history|].
  destruct (C158_load_partial 2 2 None [q0 2] (fun _ => flow0) (ramp 1 1 1) zf true zf zj zj (fun _ _ => flow0_super)) as (f' & jx' & j' & E & C).
  exists (f', jx', j'). split; [exact E|]. cbn [fst]. rewrite (carries_entry 2 _ _ _ _ _ 1 0 C) by lia. rewrite work_press by lia. rewrite integral_cons, integral_nil.
  unfold piston, downwash, dx, value, in_axes, ramp, unit_dof, zf, flow0, q0. cbn [fV fM frho fgam Nat.eqb orb sum]. cbn -[sqrt pow].
  replace (2 ^ 2 - 1) with 3 by ring. assert (0 < sqrt 3) by (apply sqrt_lt_R0; lra). field. lra.
Qed.
