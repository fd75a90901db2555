(** C13-C17, C61-C63: transient solvers. *)
From Coq Require Import Reals List Arith Lia Lra Bool.
From Verif Require Import Base BaseLemmas Trans_Model Trans_Spec Trans_Proofs.
Import ListNotations.
Open Scope R_scope.

(** C13: whatever the user and the nonlinear solver do, slot i of the stored state, velocity (and, for
    second-order schemes, acceleration) vectors, and of their sensitivities, is the entry accepted i steps
    ago, and the time is the initial time plus the accepted increments. *)
Theorem C13_history : forall k n x t ops s, (1 < n)%nat -> trun (new_solver k n x t) ops = Ok s ->
  let p := fold_left (sstep k) ops (start x t) in
  (forall i, (i < n)%nat -> holds k (st s) i (back (slg p) i) /\ holds k (sens s) i (back (sslg p) i)) /\
  time s = stime p.
Proof. exact history_refines. Qed.
Print Assumptions C13_history.
(** C13: every history without a highest-derivative solve runs through. *)
Theorem C13_runs : forall k n x t ops, (1 < n)%nat ->
  (forall o, In o ops -> match o with Highest _ _ | HighestSens _ => False | _ => True end) ->
  exists s, trun (new_solver k n x t) ops = Ok s.
Proof. exact runs_ok. Qed.
Print Assumptions C13_runs.
(** non-vacuity: three steps of a three-slot solver; slot 2 is the second-to-last accepted state *)
Example C13_nonvacuous : exists s,
  trun (new_solver (Second (1/4) (1/2)) 3 (fun _ => 7) 0)
    [SetDt 1; Highest (fun _ => 1) true; Eval (fun _ => 5); Advance (fun _ => 4) true; Advance (fun _ => 6) false]
  = Ok s /\ hx (st s) 1%nat 0%nat = 6 /\ hx (st s) 2%nat 0%nat = 4 /\ time s = 0 + 1 + 1.
Proof. eexists. split; [reflexivity|]. cbn. repeat split. Qed.

(** C14: the derived velocity and acceleration are the only ones that satisfy the Newmark relations. *)
Theorem C14_newmark_relations : forall beta gamma dt x0 v0 a0 x, beta <> 0 -> dt <> 0 ->
  newmark2 beta gamma dt x0 v0 a0 x
    (update_velocity (Second beta gamma) dt x0 v0 a0 x) (update_acceleration (Second beta gamma) dt x0 v0 a0 x).
Proof. exact newmark2_ok. Qed.
Print Assumptions C14_newmark_relations.
Theorem C14_sensitivity_relations : forall beta gamma dt x0 v0 a0 x, beta <> 0 -> dt <> 0 ->
  newmark2 beta gamma dt x0 v0 a0 x
    (update_sensitivity_velocity (Second beta gamma) dt x0 v0 a0 x)
    (update_sensitivity_acceleration (Second beta gamma) dt x0 v0 a0 x).
Proof. exact newmark2_sens_ok. Qed.
Print Assumptions C14_sensitivity_relations.
Theorem C14_newmark_unique : forall beta gamma dt x0 v0 a0 x v1 a1, beta <> 0 -> dt <> 0 ->
  newmark2 beta gamma dt x0 v0 a0 x v1 a1 -> forall i,
    v1 i = update_velocity (Second beta gamma) dt x0 v0 a0 x i /\
    a1 i = update_acceleration (Second beta gamma) dt x0 v0 a0 x i.
Proof. exact newmark2_unique. Qed.
Print Assumptions C14_newmark_unique.
(** C14, C15: the perturbation updates are exact increments. *)
Theorem C14_perturbation : forall k dt x0 v0 a0 x dx i,
  update_velocity k dt x0 v0 a0 (fun j => x j + dx j) i - update_velocity k dt x0 v0 a0 x i =
    update_delta_velocity k dt dx i /\
  update_acceleration k dt x0 v0 a0 (fun j => x j + dx j) i - update_acceleration k dt x0 v0 a0 x i =
    update_delta_acceleration k dt dx i.
Proof. exact delta_exact. Qed.
Print Assumptions C14_perturbation.
(** C14 at the level of the solver: two consecutive accepted steps of any run satisfy the relations. *)
Theorem C14_accepted_steps : forall beta gamma n x0 t0 ops s x incr s', (1 < n)%nat -> beta <> 0 -> dt s <> 0 ->
  trun (new_solver (Second beta gamma) n x0 t0) ops = Ok s -> tstep s (Advance x incr) = Ok s' ->
  newmark2 beta gamma (dt s) (hx (st s) 1%nat) (hv (st s) 1%nat) (ha (st s) 1%nat)
                             (hx (st s') 1%nat) (hv (st s') 1%nat) (ha (st s') 1%nat) /\
  (forall i, hx (st s') 1%nat i = x i).
Proof.
  intros beta gamma n x0 t0 ops s x incr s' Hn Hb Hd H1 H2.
  destruct (trun_sim ops (new_solver (Second beta gamma) n x0 t0) (start x0 t0) s) as (HS & E & F); auto.
  { simpl; lia. }
  { repeat split; simpl; auto; intros i Hi; destruct i as [|[|i]]; simpl; repeat split; auto. }
  simpl in E, F. destruct s as [k m h hs t d f fs]. simpl in *. subst k m.
  apply Nat.ltb_lt in Hn as Hn'. rewrite Hn' in H2. simpl in H2. inversion H2; subst; clear H2. simpl.
  assert (Hs : forall q : nat -> vec, shift (n - 1) q 1 = q 0%nat).
  { intros q. rewrite shift_spec. simpl. destruct (Nat.ltb_spec (n - 1) 1); auto. lia. }
  rewrite !Hs, !put_same. split; auto. rewrite !put_other by lia. now apply newmark2_ok.
Qed.
Print Assumptions C14_accepted_steps.

(** C15 *)
Theorem C15_first_order_relation : forall beta dt x0 v0 a0 x, beta <> 0 -> dt <> 0 ->
  newmark1 beta dt x0 v0 x (update_velocity (First beta) dt x0 v0 a0 x).
Proof. exact newmark1_ok. Qed.
Print Assumptions C15_first_order_relation.
Theorem C15_sensitivity_relation : forall beta dt x0 v0 a0 x, beta <> 0 -> dt <> 0 ->
  newmark1 beta dt x0 v0 x (update_sensitivity_velocity (First beta) dt x0 v0 a0 x).
Proof. exact newmark1_sens_ok. Qed.
Print Assumptions C15_sensitivity_relation.
Theorem C15_first_order_unique : forall beta dt x0 v0 a0 x v1, beta <> 0 -> dt <> 0 ->
  newmark1 beta dt x0 v0 x v1 -> forall i, v1 i = update_velocity (First beta) dt x0 v0 a0 x i.
Proof. exact newmark1_unique. Qed.
Print Assumptions C15_first_order_unique.
(** C15: the previous-step sensitivity term: mass Jacobian times the velocity sensitivity is the part
    multiplying the new state sensitivity plus the contribution computed for the previous step. *)
Theorem C15_previous_step_sensitivity : forall beta dt e x v xs xs0 vs0 as0 i,
  sum (nd e) (fun j => jmd e x v vzero i j * local e (update_velocity (First beta) dt xs0 vs0 as0 xs) j) =
  sum (nd e) (fun j => (1 / beta / dt) * jmd e x v vzero i j * local e xs j) + first_prev_sens beta dt e x v xs0 vs0 i.
Proof. exact prev_sens_exact. Qed.
Print Assumptions C15_previous_step_sensitivity.

(** C16: for every element with exact partial Jacobians (not only linear ones) the assembled Jacobian is
    the derivative of the assembled residual w.r.t. the new state; highest-derivative solve likewise. *)
Theorem C16_first_order : forall beta dt e h X, exact1 e ->
  is_jacobian e (first_residual beta dt e h) (first_jacobian beta dt e h X) X.
Proof. exact first_jacobian_exact. Qed.
Print Assumptions C16_first_order.
Theorem C16_first_order_highest : forall e h v, exact1 e ->
  is_jacobian e (first_high_residual e h) (first_high_jacobian e h v) v.
Proof. exact first_high_exact. Qed.
Print Assumptions C16_first_order_highest.
Theorem C16_second_order : forall beta gamma dt e h X, exact2 e ->
  is_jacobian e (second_residual beta gamma 0 0 dt e h) (second_jacobian beta gamma 0 0 dt e h X) X.
Proof. intros; now apply second_jacobian_exact. Qed.
Print Assumptions C16_second_order.
Theorem C16_second_order_highest : forall e h a, exact2 e ->
  is_jacobian e (second_high_residual 0 0 e h) (second_high_jacobian 0 0 e h a) a.
Proof. intros; now apply second_high_exact. Qed.
Print Assumptions C16_second_order_highest.
(** C16: with an exact linear solve the initial acceleration satisfies the equation of motion. *)
Theorem C16_initial_acceleration : forall n M C K p h dvec i,
  let e := linear_elem n (fun j => j) M C K p in
  (i < n)%nat ->
  (forall i, (i < n)%nat ->
     sum n (fun j => second_high_jacobian 0 0 e h (ha h 0%nat) i j * dvec j) =
     second_high_residual 0 0 e h (ha h 0%nat) i) ->
  let a := addv (-1) dvec (ha h 0%nat) in
  sum n (fun j => M i j * a j) + sum n (fun j => C i j * hv h 0%nat j) + sum n (fun j => K i j * hx h 0%nat j) = p i.
Proof. exact high_solve_linear. Qed.
Print Assumptions C16_initial_acceleration.
(** every linear element is exact, so the hypotheses are met *)
Example C16_nonvacuous : forall n df M C K p, exact2 (linear_elem n df M C K p).
Proof. exact linear_exact2. Qed.
(** ... and a nonlinear first-order element: f_m = v, f_x = x^2 *)
Example C16_nonvacuous_nonlinear :
  exact1 (mkOps 1 (fun i => i) (fun x v a i => v i) (fun x v i => x i * x i)
    (fun _ _ _ _ _ => 0) (fun _ _ _ i j => if Nat.eqb i j then 1 else 0) (fun _ _ _ _ _ => 0)
    (fun _ _ _ _ => 0) (fun x v i j => if Nat.eqb i j then 2 * x i else 0) (fun _ _ _ _ _ _ _ => 0)).
Proof.
  split; simpl; intros x v dx dv i Hi; assert (i = 0)%nat as -> by lia; simpl; unfold along.
  - replace (0 + (1 * dv 0%nat + 0 * dx 0%nat)) with (0 + dv 0%nat * 1) by ring.
    apply dlim_plus_eq with (l1 := 0) (l2 := dv 0%nat * 1); auto.
    + apply derivable_pt_lim_const.
    + eapply derivable_pt_lim_ext; [|apply (derivable_pt_lim_scal (fun t => t)); apply derivable_pt_lim_id].
      intros; unfold mult_real_fct; ring.
  - assert (E : derivable_pt_lim (fun t => x 0%nat + t * dx 0%nat) 0 (dx 0%nat)).
    { apply dlim_plus_eq with (l1 := 0) (l2 := dx 0%nat * 1); [apply derivable_pt_lim_const| |ring].
      eapply derivable_pt_lim_ext; [|apply (derivable_pt_lim_scal (fun t => t)); apply derivable_pt_lim_id].
      intros; unfold mult_real_fct; ring. }
    pose proof (derivable_pt_lim_mult _ _ _ _ _ E E) as P. unfold mult_fct in P.
    replace (0 + 2 * x 0%nat * dx 0%nat) with
      (dx 0%nat * (x 0%nat + 0 * dx 0%nat) + (x 0%nat + 0 * dx 0%nat) * dx 0%nat) by ring. exact P.
Qed.

(** C17 *)
Theorem C17_generalized_alpha_coefficients : forall rho, 0 <= rho <= 1 ->
  let c := update_coefficient rho in
  ga_gamma c = 1/2 - alpha_m c + alpha_f c /\ alpha_m c <= alpha_f c <= 1/2 /\
  ga_beta c >= 1/4 + (alpha_f c - alpha_m c) / 2 /\ 0 < ga_beta c.
Proof. exact ga_ok. Qed.
Print Assumptions C17_generalized_alpha_coefficients.

(** C61: generalised-alpha Jacobian, any coefficients, time-step solve. *)
Theorem C61_alpha_jacobian_partial : forall beta gamma am af dt e h X, exact2 e ->
  is_jacobian e (second_residual beta gamma am af dt e h) (second_jacobian beta gamma am af dt e h X) X.
Proof. exact second_jacobian_exact. Qed.
Print Assumptions C61_alpha_jacobian_partial.
(** In the highest-derivative solve the factor (1 - alpha_m) is missing, for the constructor's default
    coefficients (rho_inf = 0.2): the Jacobian is not the derivative of the residual. *)
Theorem C61_alpha_highest_refuted : exists e h a, exact2 e /\
  let c := update_coefficient (2/10) in
  ~ is_jacobian e (second_high_residual (alpha_m c) (alpha_f c) e h)
                  (second_high_jacobian (alpha_m c) (alpha_f c) e h a) a.
Proof.
  set (e := linear_elem 1 (fun j => j) (fun _ _ => 1) (fun _ _ => 0) (fun _ _ => 0) vzero).
  set (h := mkHist (fun _ => vzero) (fun _ => vzero) (fun _ => vzero)).
  exists e, h, vzero. split; [apply linear_exact2|]. intros c H.
  specialize (H (fun _ => 1) 0%nat ltac:(simpl; lia)). simpl in H.
  assert (A : derivable_pt_lim (fun t => second_high_residual (alpha_m c) (alpha_f c) e h (along vzero (fun _ => 1) t) 0%nat) 0 (3/2 * 1)).
  { apply derivable_pt_lim_ext with (f := fun t => 3/2 * t).
    - intros t. unfold second_high_residual, e, h, c; simpl. unfold local, blend, along, vzero; simpl. field.
    - apply (derivable_pt_lim_scal (fun t => t)). apply derivable_pt_lim_id. }
  pose proof (uniqueness_limite _ _ _ _ H A) as U. unfold second_high_jacobian, e in U. simpl in U. lra.
Qed.
Print Assumptions C61_alpha_highest_refuted.
(** Consequence: M a + K x0 = p does not hold for the computed initial acceleration, even with an exact
    linear solve. *)
Theorem C61_alpha_initial_acceleration_refuted : exists M C K p h dvec,
  let c := update_coefficient (2/10) in
  let e := linear_elem 1 (fun j => j) M C K p in
  (forall i, (i < 1)%nat ->
     sum 1 (fun j => second_high_jacobian (alpha_m c) (alpha_f c) e h (ha h 0%nat) i j * dvec j) =
     second_high_residual (alpha_m c) (alpha_f c) e h (ha h 0%nat) i) /\
  let a := addv (-1) dvec (ha h 0%nat) in
  M 0%nat 0%nat * a 0%nat + C 0%nat 0%nat * hv h 0%nat 0%nat + K 0%nat 0%nat * hx h 0%nat 0%nat <> p 0%nat.
Proof.
  exists (fun _ _ => 1), (fun _ _ => 0), (fun _ _ => 1), vzero,
    (mkHist (fun i => match i with O => fun _ => 1 | _ => vzero end) (fun _ => vzero) (fun _ => vzero)),
    (fun _ => 5/6).
  split.
  - intros i Hi. unfold second_high_jacobian, second_high_residual; simpl.
    unfold local, blend, vzero; simpl. field.
  - simpl. unfold addv, vzero. lra.
Qed.
Print Assumptions C61_alpha_initial_acceleration_refuted.

(** C62: matrix-free product = Jacobian times vector for Newmark ... *)
Theorem C62_newmark_product_partial : forall beta gamma dt e h x dx i, exact_product e -> (i < nd e)%nat ->
  second_product beta gamma 0 0 dt e h x dx i =
  sum (nd e) (fun j => second_jacobian beta gamma 0 0 dt e h x i j * dx (dofs e j)).
Proof. exact product_exact. Qed.
Print Assumptions C62_newmark_product_partial.
(** ... but not for generalised alpha, whose perturbed data are not blended. *)
Theorem C62_alpha_product_refuted : exists e h x dx, exact_product e /\ exact2 e /\
  let c := update_coefficient (2/10) in
  second_product (ga_beta c) (ga_gamma c) (alpha_m c) (alpha_f c) 1 e h x dx 0%nat <>
  sum (nd e) (fun j => second_jacobian (ga_beta c) (ga_gamma c) (alpha_m c) (alpha_f c) 1 e h x 0%nat j * dx (dofs e j)).
Proof.
  exists (linear_elem 1 (fun j => j) (fun _ _ => 0) (fun _ _ => 0) (fun _ _ => 1) vzero),
    (mkHist (fun _ => vzero) (fun _ => vzero) (fun _ => vzero)), vzero, (fun _ => 1).
  split; [apply linear_product|]. split; [apply linear_exact2|].
  intros c. unfold second_product, second_jacobian, c; simpl. unfold local, blend, vzero, scalev; simpl. lra.
Qed.
Print Assumptions C62_alpha_product_refuted.

(** C63: set_elem_operation_object re-arms the state solve but not the sensitivity solve. *)
Theorem C63_restart_state_partial : forall s s' d incr, tstep s Reattach = Ok s' ->
  exists s2, tstep s' (Highest d incr) = Ok s2.
Proof. intros [k n h hs t d f fs] s' dv incr H. inversion H; subst. simpl. eauto. Qed.
Print Assumptions C63_restart_state_partial.
Theorem C63_restart_sensitivity_refuted : exists ops s s', 
  trun (new_solver (Second (1/4) (1/2)) 2 vzero 0) ops = Ok s /\ tstep s Reattach = Ok s' /\
  forall d, tstep s' (HighestSens d) = Fault AssertFailed.
Proof. exists [HighestSens vzero]. do 2 eexists. split; [reflexivity|]. split; reflexivity. Qed.
Print Assumptions C63_restart_sensitivity_refuted.
