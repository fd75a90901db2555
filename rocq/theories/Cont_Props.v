(** C18-C21: continuation solvers. *)
From Coq Require Import Reals List Arith Lia Lra Bool.
From Verif Require Import Base BaseLemmas Cont_Model Cont_Spec Cont_Proofs.
Import ListNotations.
Open Scope R_scope.

(** C18 holds when the arc length was inside the limits beforehand, with "fewer/more than desired" read as
    the code's comparison of the desired number with the iterations *plus one*.
    Missing: see the two refutations. *)
Theorem C18_step_limits_partial : forall c iter arc,
  (0 < desired_iters c)%nat -> 0 < change_exponent c -> iter <> 0%nat -> 0 < arc ->
  min_step c <= arc <= max_step c ->
  min_step c <= next_arc c iter arc <= max_step c /\
  ((S iter < desired_iters c)%nat -> arc <= next_arc c iter arc) /\
  (desired_iters c = S iter -> next_arc c iter arc = arc) /\
  ((desired_iters c < S iter)%nat -> next_arc c iter arc <= arc).
Proof. exact next_arc_spec. Qed.
Print Assumptions C18_step_limits_partial.
Example C18_nonvacuous : (0 < desired_iters cdefault)%nat /\ 0 < change_exponent cdefault /\
  min_step cdefault <= 10 <= max_step cdefault.
Proof. simpl. repeat split; try lia; lra. Qed.

(** C18 for whole continuation runs: whatever the solver and the residual do, and however many steps are
    cut back, every solve() of a run that starts inside the limits leaves the arc length inside them. *)
Theorem C18_run_limits_partial : forall (X D : Type) c (nr : R -> X -> D -> X * D) norm fuel k arc x d arc' x' d',
  (0 < desired_iters c)%nat -> 0 < change_exponent c -> 0 < min_step c ->
  min_step c <= arc <= max_step c ->
  continue_run c nr norm fuel k arc x d = Ok (arc', x', d') ->
  min_step c <= arc' <= max_step c.
Proof.
  intros X D c nr norm fuel k arc x d arc' x' d' Hd He Hm.
  revert arc x d. induction k as [|k IH]; intros arc x d Ha H; cbn [continue_run] in H.
  - now inversion H; subst.
  - destruct (csolve c nr norm fuel arc x d) as [[[[i a] xx] dd]|] eqn:E; [|discriminate].
    cbn [bind] in H. eapply IH; [|exact H]. clear IH H.
    unfold csolve in E. destruct (norm arc x d) as [n0 d1].
    destruct (nr_loop c nr norm fuel n0 x d 0 arc x d1) as [[[[i2 a2] x2] d2]|] eqn:L; [|discriminate].
    cbn [bind] in E. inversion E; subst; clear E.
    assert (W : i <> 0%nat /\ min_step c <= a2 <= max_step c).
    { clear - Hm Ha L.
      assert (G : forall f it0 arc xA dA, min_step c <= arc <= max_step c ->
        nr_loop c nr norm f n0 x d it0 arc xA dA = Ok (i, a2, xx, dd) -> i <> 0%nat /\ min_step c <= a2 <= max_step c).
      { clear - Hm. induction f as [|f IH]; intros it0 arc xA dA Ha L; [discriminate|]. cbn [nr_loop] in L.
        destruct (nr arc xA dA) as [x3 d3]. destruct (norm arc x3 d3) as [rr d4].
        destruct (Nat.leb (max_it c) (S it0)).
        - destruct (rlt (min_step c) arc) eqn:B.
          + eapply IH; [|exact L]. unfold Rmax. destruct (Rle_dec _ _); lra.
          + inversion L; subst. split; [lia|auto].
        - destruct (converged c n0 rr); [inversion L; subst; split; [lia|auto]|eapply IH; eauto]. }
      eapply G; eauto. }
    destruct W as [W1 W2]. apply next_arc_spec; auto. lra.
Qed.
Print Assumptions C18_run_limits_partial.

(** counter state: the residual vanishes from the k-th iterate on *)
Definition toy_nr (arc : R) (x : nat) (d : unit) : nat * unit := (S x, d).
Definition toy_norm (k : nat) (arc : R) (x : nat) (d : unit) : R * unit := ((if Nat.ltb x k then 1 else 0), d).
Lemma toy_conv0 c : 0 < abs_tol c -> converged c 1 0 = true.
Proof. intros. unfold converged. apply orb_true_iff. left. now apply rlt_true. Qed.
Lemma toy_conv1 c : abs_tol c <= 1 -> rel_tol c <= 1 -> converged c 1 1 = false.
Proof.
  intros. unfold converged. apply orb_false_iff. split; apply rlt_false; auto. replace (1/1) with 1 by field. auto.
Qed.
Lemma toy_run : csolve cdefault toy_nr (toy_norm 3) 5 (sqrt 2) 0%nat tt =
  Ok (3%nat, next_arc cdefault 3 (sqrt 2), 3%nat, tt).
Proof.
  unfold csolve, toy_nr, toy_norm. cbn [nr_loop Nat.ltb Nat.leb max_it cdefault].
  rewrite toy_conv0, !toy_conv1; simpl; auto; lra.
Qed.
Lemma Rpower_half x : 0 < x -> Rpower x (1/2) = sqrt x.
Proof. intros. replace (1/2) with (/2) by field. now apply Rpower_sqrt. Qed.

Example C18_run_nonvacuous : exists arc' x', continue_run cdefault toy_nr (toy_norm 3) 5 1 4 0%nat tt = Ok (arc', x', tt).
Proof.
  exists (next_arc cdefault 3 4), 3%nat. unfold continue_run, csolve, toy_nr, toy_norm.
  cbn [nr_loop Nat.ltb Nat.leb max_it cdefault]. rewrite toy_conv0, !toy_conv1; simpl; auto; lra.
Qed.

(** C18 is false for the constructor's limits and the arc length that initialize() sets: a converged
    three-iteration solve leaves the arc length below min_step. *)
Theorem C18_below_min_step_refuted : exists n dX dp fuel arc' x',
  dp <> 0 /\ dot n dX dX <> 0 /\
  csolve cdefault toy_nr (toy_norm 3) fuel (init_arc n dX dp) 0%nat tt = Ok (3%nat, arc', x', tt) /\
  arc' < min_step cdefault.
Proof.
  exists 1%nat, (fun _ => 1), 1, 5%nat, (next_arc cdefault 3 (sqrt 2)), 3%nat.
  split; [lra|]. split; [unfold dot; simpl; lra|].
  rewrite init_arc_sqrt2 by (unfold dot; simpl; lra). split; [exact toy_run|].
  unfold next_arc. cbn [Nat.eqb desired_iters cdefault change_exponent max_step min_step].
  replace (INR 5 / (INR 3 + 1)) with (5/4) by (simpl; field).
  rewrite Rpower_half by lra.
  assert (S : sqrt (5/4) * sqrt 2 < 2).
  { rewrite <- sqrt_mult by lra. replace (5/4*2) with (5/2) by field.
    replace 2 with (sqrt (2 * 2)) at 2 by (apply sqrt_square; lra). apply sqrt_lt_1; lra. }
  destruct (rlt 1 (sqrt (5/4))) eqn:E1.
  - unfold Rmin. destruct (Rle_dec _ _); lra.
  - apply rlt_false in E1. assert (1 < sqrt (5/4)).
    { rewrite <- sqrt_1 at 1. apply sqrt_lt_1; lra. } lra.
Qed.
Print Assumptions C18_below_min_step_refuted.
(** ... and exactly the desired number of iterations shrinks the step. *)
Theorem C18_desired_count_shrinks_refuted : exists arc, min_step cdefault <= arc <= max_step cdefault /\
  next_arc cdefault (desired_iters cdefault) arc < arc.
Proof.
  exists 10. simpl min_step; simpl max_step. split; [lra|].
  destruct (factor_gt cdefault 5 ltac:(simpl; lia) ltac:(simpl; lra)) as (P & G & L & E).
  unfold next_arc. cbn [Nat.eqb desired_iters cdefault change_exponent max_step min_step] in *.
  set (f := Rpower _ _) in *. assert (f < 1) by (apply L; lia).
  destruct (rlt 1 f) eqn:E1; [apply rlt_true in E1; lra|].
  destruct (rlt f 1) eqn:E2; [|apply rlt_false in E2; lra].
  unfold Rmax. destruct (Rle_dec _ _); lra.
Qed.
Print Assumptions C18_desired_count_shrinks_refuted.

(** C19: for every residual history solve() terminates; the result is that of one trial started from the
    saved state (x) and, for restarted trials, the saved direction (d), at the k-times halved arc length;
    all earlier trials had an arc length above min_step; the trial stopped at convergence before the
    iteration limit, or at the limit with no smaller step available.
    Missing: the last, failed trial is not undone (refutation below). *)
Theorem C19_restarts_partial : forall (X D : Type) (c : cparams) (nr : R -> X -> D -> X * D)
    (norm : R -> X -> D -> R * D) arc x d, 0 < min_step c ->
  exists fuel k j, (1 <= j <= Nat.max 1 (max_it c))%nat /\
    let d1 := snd (norm arc x d) in let norm0 := fst (norm arc x d) in
    let ds := if Nat.eqb k 0 then d1 else d in
    let ak := trial_arc (min_step c) arc k in
    let '(xj, dj) := iterate nr norm ak j x ds in
    (forall fuel', (fuel <= fuel')%nat -> csolve c nr norm fuel' arc x d = Ok (j, next_arc c j ak, xj, dj)) /\
    (forall k', (k' < k)%nat -> min_step c < trial_arc (min_step c) arc k') /\
    (((j < max_it c)%nat /\ converged c norm0 (norm_after nr norm ak j x ds) = true) \/
     (j = Nat.max 1 (max_it c) /\ ak <= min_step c)).
Proof. exact csolve_characterised. Qed.
Print Assumptions C19_restarts_partial.

Definition c1 : cparams := mkC 1 (1/2) (1/2) 1 20 (1/2) 5.
(** The unconverged iterate of the last trial is kept: state not restored. *)
Theorem C19_final_failure_refuted : exists fuel arc' x' iter,
  csolve c1 toy_nr (toy_norm 10) fuel 1 0%nat tt = Ok (iter, arc', x', tt) /\ x' <> 0%nat /\
  converged c1 1 (fst (toy_norm 10 arc' x' tt)) = false.
Proof.
  exists 2%nat, (next_arc c1 1 1), 1%nat, 1%nat. split.
  - unfold csolve, toy_nr, toy_norm. cbn [nr_loop Nat.ltb Nat.leb max_it c1 min_step].
    destruct (rlt 1 1) eqn:E; [apply rlt_true in E; lra|]. reflexivity.
  - split; [lia|]. simpl. apply toy_conv1; simpl; lra.
Qed.
Print Assumptions C19_final_failure_refuted.
(** A trial that converges exactly at the iteration limit is thrown away and repeated. *)
Theorem C19_converged_at_limit_repeated : exists k j, (0 < k)%nat /\ 
  converged c1 1 (norm_after toy_nr (toy_norm 1) 4 1 0%nat tt) = true /\
  csolve c1 toy_nr (toy_norm 1) 5 4 0%nat tt = Ok (j, next_arc c1 j (trial_arc 1 4 k), 1%nat, tt).
Proof.
  exists 2%nat, 1%nat. split; [lia|]. split; [apply toy_conv0; simpl; lra|].
  unfold csolve, toy_nr, toy_norm. cbn [nr_loop Nat.ltb Nat.leb max_it c1 min_step].
  assert (E4 : rlt 1 4 = true) by (apply rlt_true; lra). rewrite E4.
  assert (A1 : Rmax 1 (/2 * 4) = 2) by (unfold Rmax; destruct (Rle_dec _ _); lra).
  rewrite A1. assert (E2 : rlt 1 2 = true) by (apply rlt_true; lra). rewrite E2.
  assert (A2 : Rmax 1 (/2 * 2) = 1) by (unfold Rmax; destruct (Rle_dec _ _); lra).
  rewrite A2. assert (E1 : rlt 1 1 = false) by (apply rlt_false; lra). rewrite E1.
  unfold bind. repeat f_equal. simpl. replace (4/2) with (/2*4) by field. rewrite A1.
  replace (2/2) with (/2*2) by field. now rewrite A2.
Qed.
Print Assumptions C19_converged_at_limit_repeated.
(** With min_step = 0 a failing solve never ends (arc length stays positive). *)
Theorem C19_zero_min_step_diverges : forall fuel,
  csolve (mkC 1 (1/2) (1/2) 0 20 (1/2) 5) toy_nr (fun _ _ _ => (1, tt)) fuel 1 0%nat tt = Fault OutOfFuel.
Proof.
  intros fuel. unfold csolve.
  assert (H : forall f x arc, 0 < arc ->
    nr_loop (mkC 1 (1/2) (1/2) 0 20 (1/2) 5) toy_nr (fun _ _ _ => (1, tt)) f 1 0%nat tt 0 arc x tt = Fault OutOfFuel).
  { induction f as [|f IH]; intros x arc Ha; [reflexivity|]. cbn [nr_loop toy_nr Nat.leb max_it min_step].
    assert (E : rlt 0 arc = true) by now apply rlt_true. rewrite E. apply IH.
    unfold Rmax. destruct (Rle_dec _ _); lra. }
  rewrite H by lra. reflexivity.
Qed.
Print Assumptions C19_zero_min_step_diverges.

(** C20: the Schur step solves the bordered system, given an exact linear solver and a non-singular J;
    a vector dXdp that is passed in must be -J^-1 dfdp. *)
Theorem C20_schur : forall n slv J f dfdp gv dgdX dgdp g dX dp, exact_solver n slv J ->
  (forall v, gv = Some v -> forall i, (i < n)%nat -> sum n (fun j => J i j * v j) = - dfdp i) ->
  (let v := match gv with Some v => v | None => fun i => - slv J dfdp i end in
   dgdp + sum n (fun j => dgdX j * v j) <> 0) ->
  schur n slv J f dfdp gv dgdX dgdp g = (dX, dp) ->
  solves_residual n J f dfdp dX dp /\ solves_constraint n dgdX dgdp g dX dp.
Proof.
  intros. split; [eapply schur_residual; eauto|eapply schur_constraint; eauto].
Qed.
Print Assumptions C20_schur.
(** C20 for the unfactored option *)
Theorem C20_bordered : forall n big J f dfdp dgdX dgdp g dX dp,
  exact_big n big (bordered_matrix n J dfdp dgdX dgdp) ->
  bordered n big J f dfdp dgdX dgdp g = (dX, dp) ->
  solves_residual n J f dfdp dX dp /\ solves_constraint n dgdX dgdp g dX dp.
Proof. exact bordered_ok. Qed.
Print Assumptions C20_bordered.
(** C20 holds for the arclength solver when the stored matrix is the present Jacobian ... *)
Theorem C20_arclength_partial : forall n slv sign xs ps arc X0 p0 J f dfdp X p dX dp,
  exact_solver n slv J ->
  let v := arc_dXdp slv J dfdp in
  arc_dgdp n sign xs ps v + sum n (fun j => arc_dgdX n sign xs ps v j * v j) <> 0 ->
  arc_iterate n slv sign xs ps arc X0 p0 J J f dfdp X p = (dX, dp) ->
  solves_residual n J f dfdp dX dp /\
  solves_constraint n (arc_dgdX n sign xs ps v) (arc_dgdp n sign xs ps v) (arc_g n sign xs ps arc X0 p0 v X p) dX dp.
Proof.
  intros n slv sign xs ps arc X0 p0 J f dfdp X p dX dp He v Ha H. unfold arc_iterate in H. fold v in H.
  split; [eapply schur_residual; eauto|].
  apply (schur_constraint n slv J f dfdp (Some v) _ _ _ _ _ He); auto.
  intros w Hw. injection Hw as <-. intros i Hi. unfold v, arc_dXdp.
  rewrite (sum_ext n _ (fun j => -1 * (J i j * slv J dfdp j))) by (intros; ring).
  destruct He as [He _]. rewrite sum_scal_l, He by auto. ring.
Qed.
Print Assumptions C20_arclength_partial.
(** ... but _g computes dXdp with the matrix of an earlier state; then the constraint equation of the
    linearised system is not satisfied. *)
Theorem C20_arclength_stale_matrix_refuted : exists slv xs ps arc X0 p0 jold jnew f dfdp X p dX dp,
  exact_solver 1 slv jold /\ exact_solver 1 slv jnew /\
  arc_iterate 1 slv 1 xs ps arc X0 p0 jold jnew f dfdp X p = (dX, dp) /\
  let v := arc_dXdp slv jold dfdp in
  ~ solves_constraint 1 (arc_dgdX 1 1 xs ps v) (arc_dgdp 1 1 xs ps v) (arc_g 1 1 xs ps arc X0 p0 v X p) dX dp.
Proof.
  set (slv := fun (A : matrix) (b : vec) => (fun i : nat => b i / A i i) : vec).
  assert (Hex : forall a, a <> 0 -> exact_solver 1 slv (fun _ _ => a)).
  { intros a Ha. split.
    - intros b i Hi. assert (i = 0)%nat as -> by lia. unfold slv. simpl. field. auto.
    - intros u Hu j Hj. assert (j = 0)%nat as -> by lia. specialize (Hu 0%nat ltac:(lia)). simpl in Hu.
      rewrite Rplus_0_l in Hu. apply Rmult_integral in Hu as [|]; auto; contradiction. }
  exists slv, 1, 1, 0, (fun _ => 0), 0, (fun _ _ => 1), (fun _ _ => 2), (fun _ => 1), (fun _ => 1), (fun _ => 0), 0.
  do 2 eexists. split; [apply Hex; lra|]. split; [apply Hex; lra|]. split; [reflexivity|].
  unfold solves_constraint, arc_dgdX, arc_dgdp, arc_g, arc_dXdp, slv, dot. simpl.
  set (q := arc_dpds 1 1 1 1 (fun i : nat => -1 * (1 / 1))).
  assert (Hq : 0 < q).
  { unfold q, arc_dpds. rewrite Rmult_1_l. apply sqrt_lt_R0. unfold dot; simpl.
    apply Rdiv_lt_0_compat; [lra|]. field_simplify. lra. }
  match goal with |- ?a <> ?b => assert (E : a = q / 8) by (field; lra); assert (E0 : b = 0) by field end.
  rewrite E, E0. lra.
Qed.
Print Assumptions C20_arclength_stale_matrix_refuted.

(** C21 arclength: unit scaled direction, exact gradient (the constraint is affine in (X,p) once the
    direction is fixed, so the finite increment is stated). *)
Theorem C21_arclength_unit : forall n sign xs ps dXdp, sign = 1 \/ sign = -1 -> ps <> 0 ->
  let dpds := arc_dpds n sign xs ps dXdp in
  let dXds := fun i => xs * dXdp i * (dpds / ps) in
  dot n dXds dXds + dpds ^ 2 = 1.
Proof. exact arc_unit. Qed.
Print Assumptions C21_arclength_unit.
Theorem C21_arclength_gradient : forall n sign xs ps arc X0 p0 dXdp X p dX dp, ps <> 0 ->
  arc_g n sign xs ps arc X0 p0 dXdp (fun i => X i + dX i) (p + dp) - arc_g n sign xs ps arc X0 p0 dXdp X p =
  dot n (arc_dgdX n sign xs ps dXdp) dX + arc_dgdp n sign xs ps dXdp * dp.
Proof. exact arc_gradient. Qed.
Print Assumptions C21_arclength_gradient.
(** C21 pseudo-arclength: the updated direction is a unit vector, tangent to the solution curve in scaled
    coordinates, and does not reverse, for both solve options. *)
Theorem C21_pseudo_direction : forall n slv big (us : bool) xs ps J dfdp t0 t0p t1 t1p,
  let df : vec := fun i => xs / ps * dfdp i in
  (us = true -> exact_solver n slv J /\ t0p + sum n (fun j => t0 j * - slv J df j) <> 0) ->
  (us = false -> exact_big n big (bordered_matrix n J df t0 t0p)) ->
  pseudo_direction n slv big us xs ps J dfdp t0 t0p = (t1, t1p) ->
  dot n t1 t1 + t1p ^ 2 = 1 /\
  (forall i, (i < n)%nat -> sum n (fun j => J i j * t1 j) + xs / ps * dfdp i * t1p = 0) /\
  0 < dot n t0 t1 + t0p * t1p.
Proof. exact pseudo_dir_ok. Qed.
Print Assumptions C21_pseudo_direction.
Theorem C21_pseudo_gradient : forall n xs ps arc X0 p0 t1 t1p X p dX dp,
  pseudo_g n xs ps arc X0 p0 t1 t1p (fun i => X i + dX i) (p + dp) - pseudo_g n xs ps arc X0 p0 t1 t1p X p =
  dot n (fun i => xs * t1 i) dX + (t1p * ps) * dp.
Proof. exact pseudo_gradient. Qed.
Print Assumptions C21_pseudo_gradient.
(** C20/C21 pseudo-arclength: one iterate solves the bordered Newton system with the updated direction. *)
Theorem C20_pseudo_iterate : forall n slv big (us : bool) xs ps arc X0 p0 J f dfdp t0 t0p X p dX dp t1 t1p,
  pseudo_direction n slv big us xs ps J dfdp t0 t0p = (t1, t1p) ->
  (us = true -> exact_solver n slv J /\
     t1p * ps + sum n (fun j => xs * t1 j * - slv J dfdp j) <> 0) ->
  (us = false -> exact_big n big (bordered_matrix n J dfdp (fun i => xs * t1 i) (t1p * ps))) ->
  pseudo_iterate n slv big us xs ps arc X0 p0 J f dfdp t0 t0p X p = (dX, dp) ->
  solves_residual n J f dfdp dX dp /\
  solves_constraint n (fun i => xs * t1 i) (t1p * ps) (pseudo_g n xs ps arc X0 p0 t1 t1p X p) dX dp.
Proof.
  intros n slv big us xs ps arc X0 p0 J f dfdp t0 t0p X p dX dp t1 t1p Ed Hs Hb H.
  unfold pseudo_iterate in H. rewrite Ed in H. destruct us.
  - destruct (Hs eq_refl) as (He & Ha). split; [eapply schur_residual; eauto|].
    eapply (schur_constraint n slv J f dfdp None); eauto. intros; discriminate.
  - eapply bordered_ok; eauto.
Qed.
Print Assumptions C20_pseudo_iterate.
(** C21: the constraint is zero exactly when the scaled step from (X0, p0) has component [arc] along the
    direction, for both solvers, and then the step is at least [arc] long; at the start of a step it is
    -arc. *)
Theorem C21_pseudo_constraint : forall n xs ps arc X0 p0 t1 t1p X p,
  let u := scaled_step xs X0 X in let up := ps * (p - p0) in
  (pseudo_g n xs ps arc X0 p0 t1 t1p X p = 0 <-> dot n u t1 + up * t1p = arc) /\
  (dot n t1 t1 + t1p ^ 2 = 1 -> 0 <= arc -> pseudo_g n xs ps arc X0 p0 t1 t1p X p = 0 ->
   arc <= sqrt (dot n u u + up ^ 2)) /\
  pseudo_g n xs ps arc X0 p0 t1 t1p X0 p0 = - arc.
Proof. exact pseudo_constraint. Qed.
Print Assumptions C21_pseudo_constraint.
Theorem C21_arclength_constraint : forall n sign xs ps arc X0 p0 dXdp X p, sign = 1 \/ sign = -1 -> ps <> 0 ->
  let dpds := arc_dpds n sign xs ps dXdp in
  let t1 := fun i => xs * dXdp i * (dpds / ps) in
  let u := scaled_step xs X0 X in let up := ps * (p - p0) in
  (arc_g n sign xs ps arc X0 p0 dXdp X p = 0 <-> dot n u t1 + up * dpds = arc) /\
  (0 <= arc -> arc_g n sign xs ps arc X0 p0 dXdp X p = 0 -> arc <= sqrt (dot n u u + up ^ 2)) /\
  arc_g n sign xs ps arc X0 p0 dXdp X0 p0 = - arc.
Proof. exact arc_constraint. Qed.
Print Assumptions C21_arclength_constraint.
Theorem C21_pseudo_initial_unit : forall n dX dp t tp, dp <> 0 -> dot n dX dX <> 0 -> pseudo_init n dX dp = (t, tp) ->
  dot n t t + tp ^ 2 = 1.
Proof. exact pseudo_init_unit. Qed.
Print Assumptions C21_pseudo_initial_unit.
(** an exact solver exists for a 2x2 non-trivial matrix *)
Definition J2 : matrix := fun i j => match i, j with O, O => 2 | O, 1%nat => 1 | 1%nat, 1%nat => 3 | _, _ => 0 end.
Definition slv2 : matrix -> vec -> vec := fun _ b i => match i with O => (b 0%nat - b 1%nat / 3) / 2 | _ => b 1%nat / 3 end.
Example C20_nonvacuous : exact_solver 2 slv2 J2.
Proof.
  split.
  - intros b i Hi. destruct i as [|[|i]]; [| |lia]; simpl; field.
  - intros u Hu. pose proof (Hu 0%nat ltac:(lia)) as A. pose proof (Hu 1%nat ltac:(lia)) as B.
    simpl in A, B. intros j Hj. destruct j as [|[|j]]; [| |lia]; lra.
Qed.
Example C20_nonvacuous2 :
  (fun i => 1) 0%nat + sum 2 (fun j => 1 * - slv2 J2 (fun _ => 1) j) <> 0.
Proof. simpl. lra. Qed.
