(** Assembly and sensitivity analysis: C108 - C114. *)
From Coq Require Import Reals Lra.
From Coquelicot Require Import Coquelicot.
From Coq Require Import List Arith Bool Permutation Lia FunctionalExtensionality.
From Verif Require Import Base BaseLemmas Sens_Model Sens_Spec Sens_Proofs Sens_Proofs2.
Import ListNotations.
Open Scope R_scope.

(** ** C108 assembled quantities *)
(** residual_and_jacobian delivers internal forces minus point loads on the unconstrained dofs and zero on
    the constrained ones, each point load counted once, however the mesh is distributed *)
Theorem C108_residual : forall S th X, owned_once S -> well_formed S ->
  exists g, residual S th X = Ok g /\
    forall i, g i = match row S i with Some _ => 0 | None => residual_of S th X i end.
Proof.
  intros S th X O W. destruct (residual_ok S th X O W) as (g & E & Q). exists g; split; auto.
  intros i. rewrite Q. unfold constrained. now destruct (row S i).
Qed.
Theorem C108_residual_sensitivity : forall S th f X, owned_once S -> well_formed S ->
  dependence_sound S th f X ->
  exists g, sensitivity_assemble S th f X = Ok g /\
    forall i, g i = match row S i with Some _ => 0 | None => dresidual_of S th f X i end.
Proof.
  intros S th f X O W D. destruct (sensitivity_ok S th f X O W D) as (g & E & Q). exists g; split; auto.
  intros i. rewrite Q. unfold constrained. now destruct (row S i).
Qed.
Theorem C108_output : forall S th X, calculate_output S th X = output_of S th X.
Proof. exact output_eq. Qed.
Theorem C108_output_derivative : forall S th X i,
  calculate_output_derivative S th X i =
  match row S i with
  | Some _ => 0
  | None => total (fun e => part S (edofs e) (e_qx e th (gather (edofs e) X)) i) (filter (counted S) (elements S))
  end.
Proof.
  intros S th X i. rewrite outd_eq. unfold ctr, constrained. destruct (row S i); auto. now apply total_0.
Qed.
(** The notions used above: an element sees the values at its own dofs, and a dof takes part in the others as
    the constraint rows say. *)
Theorem C108_local_solution : forall ds X k, gather ds X k = X (nth k ds O).
Proof. reflexivity. Qed.
Theorem C108_constrained_dof : forall S y d, well_formed S -> (d < n S)%nat ->
  sum (n S) (fun i => match row S i with Some _ => 0 | None => coef S d i * y i end) =
  match row S d with None => y d | Some r => total (fun e => snd e * y (fst e)) r end.
Proof.
  intros S y d W Hd. etransitivity; [|etransitivity; [exact (coef_dot S y d W Hd)|]].
  - apply sum_ext. intros i _. unfold constrained. now destruct (row S i).
  - reflexivity.
Qed.
(** the result does not depend on which processor holds which element and dof, nor on the order *)
Theorem C108_redistributed : forall S S' th f X dX, redistributed S S' ->
  owned_once S -> owned_once S' -> well_formed S ->
  (exists g g', residual S th X = Ok g /\ residual S' th X = Ok g' /\ forall i, g i = g' i) /\
  (exists g g', sensitivity_assemble S th f X = Ok g /\ sensitivity_assemble S' th f X = Ok g' /\
     forall i, g i = g' i) /\
  (forall i j, jacobian S th X i j = jacobian S' th X i j) /\
  calculate_output S th X = calculate_output S' th X /\
  (forall i, calculate_output_derivative S th X i = calculate_output_derivative S' th X i) /\
  calculate_output_direct_sensitivity S th f X dX = calculate_output_direct_sensitivity S' th f X dX.
Proof.
  intros S S' th f X dX R O O' W. destruct R as (E1 & E2 & E3 & E4 & E5 & E6 & E7 & P).
  assert (W' : well_formed S').
  { destruct W as (W1 & W2 & W3). split; [|split].
    - intros e He d Hd. rewrite E1. apply (W1 e); auto. eapply Permutation_in; [|exact He]. now symmetry.
    - rewrite E1, E2, E3. exact W2.
    - rewrite E1, E5. exact W3. }
  assert (C : forall i, constrained S' i = constrained S i) by (intros; unfold constrained; now rewrite E5).
  assert (K : forall d i, coef S' d i = coef S d i) by (intros; unfold coef; now rewrite E5).
  assert (PT : forall ds v i, part S' ds v i = part S ds v i)
    by (intros; unfold part; apply sum_ext; intros; now rewrite K).
  assert (A : forall e, active S' e = active S e) by (intros; unfold active; now rewrite E4).
  assert (CO : forall e, counted S' e = counted S e) by (intros; unfold counted; now rewrite A).
  assert (CT : forall ds v i, ctr S' ds v i = ctr S ds v i) by (intros; unfold ctr; now rewrite C, PT).
  assert (FO : forall g i, forces S' g i = forces S g i)
    by (intros; unfold forces; rewrite E3; apply total_ext; intros; apply total_ext; intros; apply PT).
  assert (T : forall h h' p p', (forall e, h' e = h e) -> (forall e, p' e = p e) ->
      total h (filter p (elements S)) = total h' (filter p' (elements S'))).
  { intros h h' p p' Hh Hp. rewrite !total_filter. rewrite (total_perm _ _ _ P). apply total_ext.
    intros e _. now rewrite Hh, Hp. }
  split; [|split; [|split; [|split; [|split]]]].
  - destruct (residual_ok S th X O W) as (g & Eg & Q). destruct (residual_ok S' th X O' W') as (g' & Eg' & Q').
    exists g, g'. split; [auto|]. split; [auto|]. intros i. rewrite Q, Q', C. destruct (constrained S i); auto.
    unfold residual_of. rewrite FO. f_equal. apply T; auto.
  - destruct (sensitivity_ok' S th f X O W) as (g & Eg & Q).
    destruct (sensitivity_ok' S' th f X O' W') as (g' & Eg' & Q').
    exists g, g'. split; [auto|]. split; [auto|]. intros i. rewrite Q, Q', C. destruct (constrained S i); auto.
    rewrite FO. f_equal. apply T.
    + intros e. rewrite PT. unfold part. apply sum_ext. intros. unfold dres_of. now rewrite E6.
    + intros e. unfold kept, skipped. now rewrite A, E7.
  - intros i j. rewrite !jacobian_eq. rewrite (total_perm _ _ _ P). apply total_ext. intros e _.
    unfold mctr, emat. rewrite C, E4. destruct (constrained S i).
    + now rewrite K.
    + apply sum_ext; intros; apply sum_ext; intros. now rewrite !K.
  - rewrite !output_eq. apply T; auto.
  - intros i. rewrite !outd_eq. apply T; auto.
  - rewrite !outs_eq. apply T; auto. intros e. unfold oskipped. now rewrite CO, E7.
Qed.
(** a loaded node that does not carry one dof per variable is refused *)
Theorem C108_load_size : forall S th X rk rs l ls nd ds ns, ranks S = rk :: rs -> loads S = l :: ls ->
  p_nodes l = (nd, ds) :: ns -> length ds <> n_vars S -> residual S th X = Fault AssertFailed.
Proof.
  intros S th X rk rs l ls nd ds ns E1 E2 E3 H. unfold residual. rewrite E1. cbn [over_ranks].
  unfold res_rank. rewrite E2. cbn [point_loads]. rewrite E3. cbn [load_nodes]. unfold load_node.
  apply Nat.eqb_neq in H. now rewrite H.
Qed.

(** ** C109 direct and adjoint sensitivities agree *)
Theorem C109_direct_equals_adjoint :
  forall S th lin adj st st' X f a a' dX st1 lam st2,
  owned_once S -> well_formed S -> dependence_sound S th f X -> no_override S ->
  (forall e, In e (elements S) -> output_consistent th f e (gather (edofs e) X)) ->
  sensitivity_solve S th lin st X f a = Ok (dX, st1) ->
  adjoint_solve S th adj st' X a' = (lam, st2) ->
  sysmat st1 = sysmat st2 ->
  (forall b, solves (n S) (sysmat st1) b (lin (sysmat st1) b)) ->
  (forall b, solves_tr (n S) (sysmat st2) b (adj (sysmat st2) b)) ->
  calculate_output_adjoint_sensitivity S th X lam f true
  = Ok (calculate_output_direct_sensitivity S th f X (Some dX)).
Proof.
  intros S th lin adj st st' X f a a' dX st1 lam st2 O W D NO OC HS HA EM HL HT.
  destruct (sensitivity_ok S th f X O W D) as (g & E & Q).
  unfold sensitivity_solve in HS. rewrite E in HS. cbn [bind] in HS. injection HS as <- <-.
  unfold adjoint_solve in HA. injection HA as <- <-.
  unfold calculate_output_adjoint_sensitivity. rewrite E. cbn [bind]. f_equal.
  rewrite (sens_total S th f X _ D NO OC). rewrite Rplus_comm. f_equal.
  rewrite dot_enforce by (intros i _ Hc; now rewrite Q, Hc).
  set (st1 := if a then _ else st) in *. set (st2 := if a' then _ else st') in *.
  set (rp := fun i => g i * -1) in *. set (rq := fun i => calculate_output_derivative S th X i * -1) in *.
  pose proof (dot_transpose (n S) (sysmat st1) (adj (sysmat st2) rq) (lin (sysmat st1) rp) rq rp) as T.
  rewrite EM in T at 1. specialize (T (HT rq) (HL rp)).
  unfold rp at 1 in T. rewrite dot_comm, dot_opp_l, dot_comm in T.
  unfold rq at 2 in T. rewrite dot_opp_l in T.
  apply Ropp_eq_compat in T. rewrite !Ropp_involutive in T. rewrite T, dot_comm, dot_outd by auto.
  reflexivity.
Qed.

(** ** C110 both are the total derivative of the output along the curve of equilibria *)
Theorem C110_adjoint_is_total_derivative :
  forall S th adj st X f h U dU lam st2,
  owned_once S -> well_formed S -> dependence_sound S th f X ->
  smooth_problem S th f X h U dU ->
  solution st = X ->
  (forall b, solves_tr (n S) (jacobian S th X) b (adj (jacobian S th X) b)) ->
  adjoint_solve S th adj st X true = (lam, st2) ->
  exists D, calculate_output_adjoint_sensitivity S th X lam f true = Ok D /\
            is_derive (fun t => output_of S (at_ th f t) (U t)) (th f) D.
Proof.
  intros S th adj st X f h U dU lam st2 O W D SP ES HT HA.
  destruct SP as [P1 P2 P3 P4 P5 P6 P7].
  destruct (sensitivity_ok S th f X O W D) as (g & E & Q).
  unfold adjoint_solve in HA. injection HA as <- _. cbn [sysmat solution].
  unfold calculate_output_adjoint_sensitivity. rewrite E. cbn [bind]. eexists; split; [reflexivity|].
  rewrite ES. rewrite partial_total by auto.
  eapply is_derive_ext_loc; [apply filter_forall; intros; reflexivity|].
  match goal with |- is_derive _ _ ?v => replace v with
    (total (fun e => e_qp e th f (gather (edofs e) X) zero) (filter (counted S) (elements S)) +
     total (fun e => sum (length (edofs e)) (fun k => e_qx e th (gather (edofs e) X) k * dU (dof (edofs e) k)))
       (filter (counted S) (elements S))) end.
  - exact (path_output S th W f X U dU P1 P2 P6).
  - rewrite Rplus_comm. f_equal.
    rewrite dot_enforce by (intros i _ Hc; now rewrite Q, Hc).
    set (rq := fun i => calculate_output_derivative S th X i * -1) in *.
    assert (SU : solves (n S) (jacobian S th X) (fun i => g i * -1) dU).
    { intros i Hi. rewrite Q.
      rewrite (path_solves S th W f X h U dU P1 P2 P3 (fun e He _ => P4 e He) P5 P7 i Hi).
      destruct (constrained S i); ring. }
    pose proof (dot_transpose (n S) (jacobian S th X) (adj (jacobian S th X) rq) dU rq _ (HT rq) SU) as T.
    rewrite dot_comm, dot_opp_l, dot_comm in T. unfold rq at 2 in T. rewrite dot_opp_l in T.
    apply Ropp_eq_compat in T. rewrite !Ropp_involutive in T. rewrite T, dot_comm, dot_outd by auto.
    apply total_ext. intros e He. apply filter_In in He. apply sum_ext. intros k Hk. f_equal. symmetry.
    apply enforce_adm.
    + exact (path_adm S th W f h U dU P2 P3).
    + apply (edof_lt S W); tauto.
Qed.
Theorem C110_direct_is_total_derivative :
  forall S th lin st X f h U dU dX st1,
  owned_once S -> well_formed S -> dependence_sound S th f X -> no_override S ->
  (forall e, In e (elements S) -> output_consistent th f e (gather (edofs e) X)) ->
  smooth_problem S th f X h U dU ->
  (forall b, solves (n S) (jacobian S th X) b (lin (jacobian S th X) b)) ->
  (forall y, solves (n S) (jacobian S th X) zero y -> forall i, (i < n S)%nat -> y i = 0) ->
  sensitivity_solve S th lin st X f true = Ok (dX, st1) ->
  (forall d, (d < n S)%nat -> dX d = dU d) /\
  is_derive (fun t => output_of S (at_ th f t) (U t)) (th f)
    (calculate_output_direct_sensitivity S th f X (Some dX)).
Proof.
  intros S th lin st X f h U dU dX st1 O W D NO OC SP HL NS HS.
  destruct SP as [P1 P2 P3 P4 P5 P6 P7].
  destruct (sensitivity_ok S th f X O W D) as (g & E & Q).
  unfold sensitivity_solve in HS. rewrite E in HS. cbn [bind sysmat] in HS. injection HS as <- _.
  set (rp := fun i => g i * -1) in *.
  assert (SU : solves (n S) (jacobian S th X) rp dU).
  { intros i Hi. unfold rp. rewrite Q.
    rewrite (path_solves S th W f X h U dU P1 P2 P3 (fun e He _ => P4 e He) P5 P7 i Hi).
    destruct (constrained S i); ring. }
  assert (EQ : forall i, (i < n S)%nat -> lin (jacobian S th X) rp i = dU i).
  { intros i Hi. assert (Z : lin (jacobian S th X) rp i - dU i = 0); [|lra].
    apply (NS (fun i => lin (jacobian S th X) rp i - dU i)); auto. intros j Hj.
    transitivity (rp j - rp j); [|unfold zero; ring]. rewrite <- (HL rp j Hj) at 1. rewrite <- (SU j Hj).
    rewrite <- sum_minus. apply sum_ext. intros; ring. }
  assert (ED : forall d, (d < n S)%nat -> enforce S (lin (jacobian S th X) rp) d = dU d).
  { intros d Hd. rewrite (enforce_ext S _ dU d W Hd EQ). apply enforce_adm; auto.
    exact (path_adm S th W f h U dU P2 P3). }
  split; [exact ED|].
  rewrite (sens_total S th f X _ D NO OC), partial_total by auto.
  match goal with |- is_derive _ _ (?a + ?b) => replace b with
     (total (fun e => sum (length (edofs e)) (fun k => e_qx e th (gather (edofs e) X) k * dU (dof (edofs e) k)))
       (filter (counted S) (elements S))) end.
  - exact (path_output S th W f X U dU P1 P2 P6).
  - apply total_ext. intros e He. apply filter_In in He. apply sum_ext. intros k Hk. f_equal. symmetry.
    apply ED. apply (edof_lt S W); tauto.
Qed.

(** ** C111 the adjoint solve at a given solution *)
(** at the system's own solution the adjoint vector solves the transposed problem *)
Theorem C111_adjoint_at_solution_partial : forall S th adj st X lam st2, solution st = X ->
  (forall b, solves_tr (n S) (jacobian S th X) b (adj (jacobian S th X) b)) ->
  adjoint_solve S th adj st X true = (lam, st2) ->
  sysmat st2 = jacobian S th X /\
  exists mu, (forall i, lam i = enforce S mu i) /\
    forall j, (j < n S)%nat -> sum (n S) (fun i => jacobian S th X i j * mu i)
                               = - calculate_output_derivative S th X j.
Proof.
  intros S th adj st X lam st2 E H HA. unfold adjoint_solve in HA. injection HA as <- <-. cbn [sysmat].
  rewrite E. split; [reflexivity|]. eexists; split; [reflexivity|].
  intros j Hj. rewrite H by auto. ring.
Qed.
(** the forward solve has no such restriction *)
Theorem C111_direct_at_X : forall S th lin st X f dX st1,
  (forall b, solves (n S) (jacobian S th X) b (lin (jacobian S th X) b)) ->
  sensitivity_solve S th lin st X f true = Ok (dX, st1) ->
  exists g mu, sensitivity_assemble S th f X = Ok g /\ (forall i, dX i = enforce S mu i) /\
    forall i, (i < n S)%nat -> sum (n S) (fun j => jacobian S th X i j * mu j) = - g i.
Proof.
  intros S th lin st X f dX st1 H HS. unfold sensitivity_solve in HS.
  destruct (sensitivity_assemble S th f X) as [g|] eqn:E; [|discriminate]. cbn [bind sysmat] in HS.
  injection HS as <- _. eexists _, _; split; [reflexivity|]. split; [reflexivity|].
  intros i Hi. rewrite H by auto. ring.
Qed.

(** a single degree of freedom with residual x^2 - p and output x *)
Definition quad_elem : elem := mkElem 0 [0%nat]
  (fun th x _ => x O * x O - th O) (fun _ x _ _ => 2 * x O) (fun _ _ _ _ => -1) (fun _ _ _ _ => 0)
  true (fun _ x => x O) (fun _ _ _ => 1) (fun _ _ _ dx => dx O).
Definition quad_sys (d : option pdep) : sys :=
  mkSys 1 1 [mkRank [quad_elem] 0 1] [] (fun _ => false) (fun _ => None) (fun _ => false) d.
Lemma quad_jac d th X : jacobian (quad_sys d) th X O O = 2 * X O.
Proof. cbv [jacobian quad_sys ranks local fold_left jac_elem diag add_matrix constrained row edofs quad_elem
  length sum coef dof nth mzero e_jac gather Nat.eqb]. ring. Qed.
Definition div_solve (A : matrix) (b : vec) : vec := fun _ => b O / A O O.
Lemma div_solves A b : A O O <> 0 -> solves 1 A b (div_solve A b).
Proof. intros H i Hi. assert (i = O) by lia. subst. cbn. unfold div_solve. field. auto. Qed.
Lemma div_solves_tr A b : A O O <> 0 -> solves_tr 1 A b (div_solve A b).
Proof. intros H i Hi. assert (i = O) by lia. subst. cbn. unfold div_solve. field. auto. Qed.
Lemma quad_outd d th X : calculate_output_derivative (quad_sys d) th X O = 1.
Proof. cbn. unfold add_vector. cbn. unfold zero. ring. Qed.
Lemma quad_owned d : owned_once (quad_sys d).
Proof. intros i Hi. cbn in Hi. assert (i = O) by lia. subst. reflexivity. Qed.
Lemma quad_formed d : well_formed (quad_sys d).
Proof.
  split; [|split].
  - intros e He k Hk. cbn in He. destruct He as [<-|[]]. cbn in Hk. destruct Hk as [<-|[]]. cbn. lia.
  - intros l nd ds [].
  - discriminate.
Qed.

(** With X different from the stored solution the adjoint is that of another matrix, although the solver is
    exact: the resulting sensitivity differs from the direct one. *)
Theorem C111_adjoint_elsewhere_refuted : exists S th st X f dX st1 lam st2,
  owned_once S /\ well_formed S /\ param_dep S = None /\
  (forall A b, A O O <> 0 -> solves (n S) A b (div_solve A b) /\ solves_tr (n S) A b (div_solve A b)) /\
  (forall x, x O <> 0 -> jacobian S th x O O <> 0) /\ X O <> 0 /\ solution st O <> 0 /\
  sensitivity_solve S th div_solve st X f true = Ok (dX, st1) /\
  adjoint_solve S th div_solve st X true = (lam, st2) /\
  calculate_output_adjoint_sensitivity S th X lam f true
    <> Ok (calculate_output_direct_sensitivity S th f X (Some dX)).
Proof.
  exists (quad_sys None), (fun _ => 4), (mkState (fun _ => 1) mzero), (fun _ => 2), O.
  eexists _, _, _, _.
  split; [apply quad_owned|]. split; [apply quad_formed|]. split; [reflexivity|].
  split; [intros; split; [now apply div_solves|now apply div_solves_tr]|].
  split; [intros; rewrite quad_jac; lra|].
  split; [lra|]. split; [cbn; lra|].
  split; [reflexivity|]. split; [reflexivity|].
  intros H. cbv -[Rplus Rmult Rinv Ropp IZR Rdiv Rminus pow] in H. injection H as H.
  field_simplify in H. lra.
Qed.

(** ** C112 the parameter-dependence object *)
Theorem C112_dependence : forall S th f X dX, owned_once S -> well_formed S ->
  dependence_sound S th f X ->
  (exists g g', sensitivity_assemble S th f X = Ok g /\
     sensitivity_assemble (without S) th f X = Ok g' /\ forall i, g i = g' i) /\
  calculate_output_direct_sensitivity S th f X None
  = calculate_output_direct_sensitivity (without S) th f X None /\
  (no_override S ->
   (forall e, In e (elements S) -> output_consistent th f e (gather (edofs e) X)) ->
   calculate_output_direct_sensitivity S th f X (Some dX)
   = calculate_output_direct_sensitivity (without S) th f X (Some dX)).
Proof.
  intros S th f X dX O W D.
  assert (DN : dependence_sound (without S) th f X) by (intros d Hd; discriminate).
  split; [|split].
  - destruct (sensitivity_ok S th f X O W D) as (g & E & Q).
    destruct (sensitivity_ok (without S) th f X O W DN) as (g' & E' & Q').
    exists g, g'. split; [auto|]. split; [auto|]. intros i. rewrite Q, Q'. reflexivity.
  - rewrite !partial_total by auto. reflexivity.
  - intros NO OC. rewrite (sens_total S th f X dX D NO OC).
    rewrite (sens_total (without S) th f X dX DN); auto.
    + rewrite !partial_total by auto. reflexivity.
    + intros d Hd; discriminate.
Qed.
(** With override_flag the sensitivity of the solution is dropped on the excluded elements, so the direct
    sensitivity differs from the adjoint one although the object is sound. *)
Definition lin_elem : elem := mkElem 0 [0%nat]
  (fun th x _ => x O) (fun _ x _ _ => 1) (fun _ _ _ _ => 0) (fun _ _ _ _ => 0)
  true (fun _ x => x O) (fun _ _ _ => 1) (fun _ _ _ dx => dx O).
Definition src_elem : elem := mkElem 1 [0%nat]
  (fun th _ _ => - th O) (fun _ x _ _ => 0) (fun _ _ _ _ => -1) (fun _ _ _ _ => 0)
  false (fun _ x => 0) (fun _ _ _ => 0) (fun _ _ _ dx => 0).
Definition ovr_sys : sys :=
  mkSys 1 1 [mkRank [lin_elem; src_elem] 0 1] [] (fun _ => false) (fun _ => None) (fun _ => false)
    (Some (mkDep (fun e _ => (subdom e =? 1)%nat) true)).
Theorem C112_override_refuted : exists S th st X f dX st1 lam st2,
  owned_once S /\ well_formed S /\ dependence_sound S th f X /\
  (forall e, In e (elements S) -> output_consistent th f e (gather (edofs e) X)) /\
  sensitivity_solve S th div_solve st X f true = Ok (dX, st1) /\
  adjoint_solve S th div_solve st X true = (lam, st2) /\
  sysmat st1 O O = sysmat st2 O O /\ sysmat st1 O O <> 0 /\
  calculate_output_adjoint_sensitivity S th X lam f true = Ok 1 /\
  calculate_output_direct_sensitivity S th f X (Some dX) = 0.
Proof.
  exists ovr_sys, (fun _ => 3), (mkState (fun _ => 3) mzero), (fun _ => 3), O.
  eexists _, _, _, _.
  split; [intros i Hi; cbn in Hi; assert (i = O) by lia; subst; reflexivity|].
  split.
  { split; [|split].
    - intros e He k Hk. cbn in He. destruct He as [<-|[<-|[]]]; cbn in Hk; destruct Hk as [<-|[]]; cbn; lia.
    - intros l nd ds [].
    - discriminate. }
  split.
  { intros d Hd e He Hn. cbn in Hd. injection Hd as <-. cbn in He. destruct He as [<-|[<-|[]]]; cbn in Hn;
    [|discriminate]. split; [|reflexivity]. intros. unfold dres_of. cbn. ring. }
  split.
  { intros e He dx. cbn in He. destruct He as [<-|[<-|[]]]; cbn; unfold zero; ring. }
  split; [reflexivity|]. split; [reflexivity|].
  split; [reflexivity|]. split; [cbv -[Rplus Rmult Rinv Ropp IZR Rdiv Rminus pow]; lra|].
  split.
  - cbv -[Rplus Rmult Rinv Ropp IZR Rdiv Rminus pow]. f_equal. field.
  - reflexivity.
Qed.

(** ** C113 several parameters at once *)
Theorem C113_multiple_parameters : forall S th X adj ps,
  match adjoint_multiple S th X adj ps with
  | Ok l => length l = length ps /\
      forall i p, nth_error ps i = Some p -> exists q, nth_error l i = Some q /\
        calculate_output_adjoint_sensitivity S th X adj p false = Ok q
  | Fault f => exists p, In p ps /\ calculate_output_adjoint_sensitivity S th X adj p false = Fault f
  end.
Proof.
  intros S th X adj. induction ps as [|p t IH]; cbn [adjoint_multiple].
  - split; [reflexivity|]. intros [|i] p; discriminate.
  - destruct (sensitivity_assemble S th p X) as [g|e] eqn:E; cbn [bind].
    + destruct (adjoint_multiple S th X adj t) as [l|e]; cbn [bind].
      * destruct IH as [L Q]. split; [cbn; lia|]. intros [|i] q H.
        -- injection H as <-. eexists; split; [reflexivity|].
           unfold calculate_output_adjoint_sensitivity. now rewrite E.
        -- exact (Q i q H).
      * destruct IH as (q & Hq & Q). exists q; split; [now right|auto].
    + exists p; split; [now left|]. unfold calculate_output_adjoint_sensitivity. now rewrite E.
Qed.
(** the two parts add up: the full value is the multi-parameter one plus the partial sensitivity *)
Theorem C113_parts : forall S th X adj p q,
  calculate_output_adjoint_sensitivity S th X adj p false = Ok q ->
  calculate_output_adjoint_sensitivity S th X adj p true
  = Ok (q + calculate_output_direct_sensitivity S th p X None).
Proof.
  intros S th X adj p q. unfold calculate_output_adjoint_sensitivity.
  destruct (sensitivity_assemble S th p X); cbn [bind]; [|discriminate]. intros H. injection H as <-. reflexivity.
Qed.

(** ** C114 the assembled Jacobian is the derivative of the assembled residual *)
Theorem C114_jacobian : forall S th X y i, well_formed S -> (i < n S)%nat -> admissible S y ->
  row S i = None ->
  (forall e, In e (elements S) -> active S e = true -> jacobian_consistent th e (gather (edofs e) X)) ->
  is_derive (fun t => residual_of S th (fun d => X d + t * y d) i) 0
    (sum (n S) (fun j => jacobian S th X i j * y j) - blanked S y i).
Proof.
  intros S th X y i W Hi A E J. apply residual_derive; auto. unfold constrained. now rewrite E.
Qed.
(** rows of constrained dofs: the residual row is met exactly by vectors that respect the constraint *)
Theorem C114_constrained_rows : forall S th X y i r, well_formed S -> (i < n S)%nat -> row S i = Some r ->
  (exists e, In e (elements S) /\ In i (edofs e)) ->
  (sum (n S) (fun j => jacobian S th X i j * y j) = 0 <->
   y i = total (fun e => snd e * y (fst e)) r).
Proof.
  intros S th X y i r W Hi Er (e0 & He & Hd). rewrite jac_row by auto.
  unfold constrained. rewrite Er. unfold enforce. rewrite Er. fold (total (fun e => snd e * y (fst e)) r).
  set (c := y i - total (fun e => snd e * y (fst e)) r).
  change (y i - lsum (map (fun e => snd e * y (fst e)) r)) with c.
  assert (Q : exists k, 1 <= k /\ total (fun e => if existsb (Nat.eqb i) (edofs e) then c else 0) (elements S) = k * c).
  { clear -He Hd. induction (elements S) as [|e l IH]; [destruct He|]. rewrite total_cons.
    assert (N : exists k, 0 <= k /\ total (fun e => if existsb (Nat.eqb i) (edofs e) then c else 0) l = k * c).
    { clear. induction l as [|e l (k & K & E)].
      - exists 0; split; [lra|cbn; ring].
      - rewrite total_cons, E. destruct (existsb _ _); [exists (k + 1)|exists k]; split; try lra; ring. }
    destruct He as [->|He].
    - assert (X : existsb (Nat.eqb i) (edofs e0) = true)
        by (apply existsb_exists; exists i; split; auto; apply Nat.eqb_refl).
      rewrite X. destruct N as (k & K & ->). exists (k + 1); split; [lra|ring].
    - destruct (IH He) as (k & K & ->). destruct (existsb _ (edofs e)); [exists (k + 1)|exists k]; split; try lra; ring. }
  destruct Q as (k & K & ->). unfold c. split; intros H; [|rewrite H; ring].
  apply Rmult_integral in H. destruct H; lra.
Qed.
(** blanked-out elements that share dofs with active ones perturb the Jacobian of a residual they do not
    contribute to *)
Theorem C114_blanked_refuted : exists S th X y i, well_formed S /\ (i < n S)%nat /\ admissible S y /\
  row S i = None /\
  (forall e, In e (elements S) -> active S e = true -> jacobian_consistent th e (gather (edofs e) X)) /\
  ~ is_derive (fun t => residual_of S th (fun d => X d + t * y d) i) 0
      (sum (n S) (fun j => jacobian S th X i j * y j)).
Proof.
  set (S := mkSys 1 1 [mkRank [lin_elem; src_elem] 0 1] [] (fun s => (s =? 1)%nat) (fun _ => None)
    (fun _ => false) None).
  assert (W : well_formed S).
  { split; [|split].
    - intros e He k Hk. cbn in He. destruct He as [<-|[<-|[]]]; cbn in Hk; destruct Hk as [<-|[]]; cbn; lia.
    - intros l nd ds [].
    - discriminate. }
  assert (A : admissible S (fun _ => 1)) by (intros i r _ Hr; discriminate).
  assert (J : forall e, In e (elements S) -> active S e = true -> jacobian_consistent (fun _ => 0) e (gather (edofs e) zero)).
  { intros e He Ha. cbn in He. destruct He as [<-|[<-|[]]]; cbn in Ha; [|discriminate].
    intros p dp _ D k Hk. cbn. apply (der_ext (fun t => p t O) _ 0 (dp O)); [reflexivity|ring|]. apply D. cbn. lia. }
  exists S, (fun _ => 0), zero, (fun _ => 1), O.
  split; [exact W|]. split; [cbn; lia|]. split; [exact A|]. split; [reflexivity|]. split; [exact J|].
  intros H. pose proof (C114_jacobian S (fun _ => 0) zero (fun _ => 1) O W (Nat.lt_0_succ 0) A eq_refl J) as H2.
  pose proof (der_unique _ _ _ _ H H2) as E.
  assert (B : blanked S (fun _ => 1) O = / 10 ^ 24).
  { unfold blanked. generalize (/ 10 ^ 24). intros c. cbv -[Rplus Rmult IZR]. ring. }
  assert (P : 0 < / 10 ^ 24) by (apply Rinv_0_lt_compat, pow_lt; lra). lra.
Qed.
Print Assumptions C108_local_solution.
Print Assumptions C108_constrained_dof.
