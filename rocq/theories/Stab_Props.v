(** C22, C23, C64, C65: stabilised sensitivity solver. *)
From Coq Require Import Reals List Arith Lia Lra Bool FunctionalExtensionality.
From Verif Require Import Base BaseLemmas Stab_Model Stab_Spec Stab_Proofs.
Import ListNotations.
Open Scope R_scope.

(** C22.  A call that returns has advanced by some k >= 1 equal sub-steps; the averaged mass is the arithmetic
    mean over those sub-steps and the integrated Jacobian dt times the sum. *)
Theorem C22_averages : forall c mass jac force slv ampl fuel s s',
  p_dt c <> 0 ->
  sensitivity_solve c mass jac force slv ampl fuel s = Ok s' ->
  exists k, (1 <= k)%nat /\
    s_index0 s' = s_index1 s /\ s_index1 s' = (s_index1 s + k)%nat /\
    s_t0 s' = s_time s /\ s_time s' = s_time s + INR k * p_dt c /\
    (forall a b, s_Mavg s' a b =
       sum k (fun j => mass (s_index1 s + 1 + j)%nat (s_time s + (INR j + 1) * p_dt c) a b) / INR k) /\
    (forall a b, s_Jint s' a b =
       p_dt c * sum k (fun j => jac (s_index1 s + 1 + j)%nat (s_time s + (INR j + 1) * p_dt c) a b)).
Proof.
  intros c mass jac force slv ampl fuel s s' Hdt E.
  assert (E0 := E). unfold sensitivity_solve, assert_ in E0.
  destruct (Rlt_dec 0 (p_max_amp c)) as [H1|]; [|discriminate].
  destruct (Nat.ltb 0 (p_max_index c)) eqn:H2; [|discriminate]. apply Nat.ltb_lt in H2.
  rewrite solve_start in E by auto. apply iterate_before in E; auto.
  destruct E as (k & Hk & _ & _ & H). exists k. split; [lia|].
  assert (X : forall x y, s' = result c mass jac force (s_index1 s) (s_time s) k x y ->
     s_index0 s' = s_index1 s /\ s_index1 s' = (s_index1 s + k)%nat /\
     s_t0 s' = s_time s /\ s_time s' = s_time s + INR k * p_dt c /\
    (forall a b, s_Mavg s' a b =
       sum k (fun j => mass (s_index1 s + 1 + j)%nat (s_time s + (INR j + 1) * p_dt c) a b) / INR k) /\
    (forall a b, s_Jint s' a b =
       p_dt c * sum k (fun j => jac (s_index1 s + 1 + j)%nat (s_time s + (INR j + 1) * p_dt c) a b))).
  { intros x y ->. unfold result. cbn [s_t0 s_time s_index0 s_index1 s_Mavg s_Jint].
    repeat split; auto; intros a b.
    - unfold mean_mass. f_equal. apply sum_ext. intros j _. unfold at_step. rewrite S_INR. do 2 f_equal. lia.
    - unfold int_jac. f_equal. apply sum_ext. intros j _. unfold at_step. rewrite S_INR. do 2 f_equal. lia. }
  destruct H as [[_ ->]|[_ ->]]; eapply X; reflexivity.
Qed.
Print Assumptions C22_averages.

(** The call always returns, after at most max_index + 1 - index1 retries. *)
Theorem C22_terminates : forall c mass jac force slv ampl fuel s,
  p_dt c <> 0 -> 0 < p_max_amp c -> (0 < p_max_index c)%nat ->
  (p_max_index c + 1 - s_index1 s < fuel)%nat ->
  exists s', sensitivity_solve c mass jac force slv ampl fuel s = Ok s'.
Proof.
  intros. rewrite solve_start by auto.
  apply iterate_total with (d := (p_max_index c + 1 - s_index1 s)%nat); auto. lia.
Qed.
Print Assumptions C22_terminates.

(** Which sub-step is taken and what it solves: the solution of the k-th trial is the solution of
    (mean mass + beta * integrated Jacobian) x = mean mass * x0 + integrated force; k is the first trial with
    acceptable amplification (then both stored vectors hold that solution), or the first one past max_index. *)
Theorem C22_first_acceptable_trial : forall c mass jac force slv ampl fuel s s',
  p_dt c <> 0 ->
  sensitivity_solve c mass jac force slv ampl fuel s = Ok s' ->
  let A k := lhs c mass jac (s_index1 s) (s_time s) k in
  let b k := rhs c mass force (s_index1 s) (s_time s) (s_dsol0 s) k in
  let x k := slv (A k) (b k) in
  let M k := mean_mass c mass (s_index1 s) (s_time s) k in
  let amp k := ampl (fun i j => M k i j - (1 - p_beta c) * int_jac c jac (s_index1 s) (s_time s) k i j) (A k) (b k)
                    (fun i => sum (p_n c) (fun j => M k i j * x k j)) in
  exists k, (1 <= k)%nat /\ s_index1 s' = (s_index1 s + k)%nat /\
    (forall j, (1 <= j < k)%nat -> p_max_amp c < amp j /\ (s_index1 s + j <= p_max_index c)%nat) /\
    ((amp k <= p_max_amp c /\ s_dsol1 s' = x k /\ s_dsol0 s' = x k) \/
     (p_max_amp c < amp k /\ (p_max_index c < s_index1 s + k)%nat /\ s_dsol0 s' = s_dsol0 s)).
Proof.
  intros c mass jac force slv ampl fuel s s' Hdt E A b x M amp.
  assert (E0 := E). unfold sensitivity_solve, assert_ in E0.
  destruct (Rlt_dec 0 (p_max_amp c)) as [H1|]; [|discriminate].
  destruct (Nat.ltb 0 (p_max_index c)) eqn:H2; [|discriminate]. apply Nat.ltb_lt in H2.
  rewrite solve_start in E by auto. apply iterate_before in E; auto.
  destruct E as (k & Hk & Hj & Hs & H). exists k. split; [lia|]. split.
  { destruct H as [[_ ->]|[_ ->]]; reflexivity. }
  split.
  { intros j Hjk. specialize (Hj j ltac:(lia)). unfold stops, accepted in Hj. split.
    - apply Rnot_le_lt. intros Hle. apply Hj. left. exact Hle.
    - apply Nat.nlt_ge. intros Hlt. apply Hj. right. exact Hlt. }
  destruct H as [[Ha ->]|[Ha ->]].
  - left. split; [exact Ha|]. split; reflexivity.
  - right. split; [apply Rnot_le_lt; exact Ha|]. split; [|reflexivity].
    destruct Hs as [Hs|Hs]; [contradiction|exact Hs].
Qed.
Print Assumptions C22_first_acceptable_trial.

(** one dof, unit mass, unit decay; amplification 2 for the first two trials, then 1/2 *)
Definition ex_c : sparams := mkP 1 1 1 1 5.
Definition ex_s : sstate := mkS 0 0 0 0 mzero mzero vzero (fun _ => 1) vzero.
Definition ex_slv (A : matrix) (b : vec) : vec := fun i => b i / A i i.
Definition ex_amp (M0 M1 : matrix) (b x : vec) : R := if Rle_dec (M1 0%nat 0%nat) 3 then 2 else /2.
Example C22_nonvacuous : exists s',
  sensitivity_solve ex_c (fun _ _ _ _ => 1) (fun _ _ _ _ => 1) (fun _ _ _ => 0) ex_slv ex_amp 8 ex_s = Ok s' /\
  p_dt ex_c <> 0.
Proof.
  destruct (C22_terminates ex_c (fun _ _ _ _ => 1) (fun _ _ _ _ => 1) (fun _ _ _ => 0) ex_slv ex_amp 8 ex_s)
    as (s' & E); simpl; try lra; try lia.
  exists s'. split; [exact E|simpl; lra].
Qed.

(** C23 is false: when the last trial is rejected the current sensitivity is set to zero (it is zeroed again
    after the previous solution was copied into it). *)
Theorem C23_rejected_solution_is_zero_refuted : exists c mass jac force slv ampl fuel s s',
  p_dt c <> 0 /\
  (forall M0 M1 b x, p_max_amp c < ampl M0 M1 b x) /\          (* every trial is rejected *)
  sensitivity_solve c mass jac force slv ampl fuel s = Ok s' /\
  s_dsol0 s 0%nat = 1 /\ s_dsol1 s' 0%nat = 0.
Proof.
  exists (mkP 1 1 1 1 1), (fun _ _ _ _ => 1), (fun _ _ _ _ => 1), (fun _ _ _ => 0), ex_slv, (fun _ _ _ _ => 2), 5%nat, ex_s.
  destruct (C22_terminates (mkP 1 1 1 1 1) (fun _ _ _ _ => 1) (fun _ _ _ _ => 1) (fun _ _ _ => 0) ex_slv (fun _ _ _ _ => 2) 5 ex_s)
    as (s' & E); simpl; try lra; try lia.
  exists s'. split; [simpl; lra|]. split; [simpl; intros; lra|]. split; [exact E|]. split; [reflexivity|].
  rewrite solve_start in E by (simpl; lra || lia).
  apply iterate_before in E; [|simpl; lra].
  destruct E as (k & _ & _ & _ & [[H _]|[_ ->]]); [unfold accepted in H; simpl in H; lra|reflexivity].
Qed.
Print Assumptions C23_rejected_solution_is_zero_refuted.

(** What does hold: over any number of successive calls, solution_sensitivity(1), from which the next call
    continues, is the most recently accepted solution (the starting value if none was), and so is
    solution_sensitivity() whenever the last call accepted.
    Missing: solution_sensitivity() after a rejection. *)
Inductive calls (c : sparams) mass jac force slv ampl fuel (s : sstate) : list (sstate * bool) -> sstate -> Prop :=
| calls_nil : calls c mass jac force slv ampl fuel s [] s
| calls_step : forall l s1 s2 (acc : bool),
    calls c mass jac force slv ampl fuel s l s1 ->
    sensitivity_solve c mass jac force slv ampl fuel s1 = Ok s2 ->
    (let k := (s_index1 s2 - s_index1 s1)%nat in
     let A := lhs c mass jac (s_index1 s1) (s_time s1) k in
     let b := rhs c mass force (s_index1 s1) (s_time s1) (s_dsol0 s1) k in
     let M := mean_mass c mass (s_index1 s1) (s_time s1) k in
     let J := int_jac c jac (s_index1 s1) (s_time s1) k in
     acc = true <-> ampl (fun i j => M i j - (1 - p_beta c) * J i j) A b
                         (fun i => sum (p_n c) (fun j => M i j * slv A b j)) <= p_max_amp c) ->
    calls c mass jac force slv ampl fuel s ((s2, acc) :: l) s2.
Fixpoint last_accepted (x : vec) (l : list (sstate * bool)) : vec :=
  match l with [] => x | (s, true) :: _ => s_dsol1 s | (_, false) :: l => last_accepted x l end.
Theorem C23_previous_is_last_accepted_partial : forall c mass jac force slv ampl fuel s l s',
  p_dt c <> 0 -> calls c mass jac force slv ampl fuel s l s' ->
  s_dsol0 s' = last_accepted (s_dsol0 s) l /\
  (forall s1 l', l = (s1, true) :: l' -> s_dsol1 s' = last_accepted (s_dsol0 s) l).
Proof.
  intros c mass jac force slv ampl fuel s l s' Hdt H. induction H as [|l s1 s2 acc H IH E Hacc].
  - split; [reflexivity|discriminate].
  - destruct (C22_first_acceptable_trial c mass jac force slv ampl fuel s1 s2 Hdt E) as (k & Hk & Hi & _ & Hd).
    cbv zeta in Hacc. replace (s_index1 s2 - s_index1 s1)%nat with k in Hacc by lia.
    destruct Hd as [(Ha & H1 & H0)|(Ha & _ & H0)].
    + assert (acc = true) by (apply Hacc; exact Ha). subst acc. simpl. split; [congruence|]. intros; reflexivity.
    + assert (acc = false) by (destruct acc; auto; exfalso; assert (X := proj1 Hacc eq_refl); lra). subst acc. simpl.
      split; [rewrite H0; apply IH|]. intros; discriminate.
Qed.
Print Assumptions C23_previous_is_last_accepted_partial.
Example C23_nonvacuous : exists s' acc,
  calls ex_c (fun _ _ _ _ => 1) (fun _ _ _ _ => 1) (fun _ _ _ => 0) ex_slv ex_amp 8 ex_s [(s', acc)] s'.
Proof.
  destruct C22_nonvacuous as (s' & E & _). exists s'.
  match goal with |- exists acc, _ => idtac end.
  destruct (Rle_dec (ex_amp (fun i j => mean_mass ex_c (fun _ _ _ _ => 1) 0 0 (s_index1 s' - 0) i j -
     (1 - p_beta ex_c) * int_jac ex_c (fun _ _ _ _ => 1) 0 0 (s_index1 s' - 0) i j)
     (lhs ex_c (fun _ _ _ _ => 1) (fun _ _ _ _ => 1) 0 0 (s_index1 s' - 0)) (fun _ => 0) (fun _ => 0)) (p_max_amp ex_c)) as [H|H].
  - exists true. eapply calls_step; [apply calls_nil|exact E|]. cbv zeta. split; auto.
  - exists false. eapply calls_step; [apply calls_nil|exact E|]. cbv zeta. split; [discriminate|].
    intros H'. exfalso. apply H. exact H'.
Qed.

(** C64.  With beta = 1 a steady sensitivity (J x + dF/dp = 0 at every sub-step) is preserved. *)
Definition solves_exactly (n : nat) (slv : matrix -> vec -> vec) : Prop :=
  forall A b, (forall u, (forall i, (i < n)%nat -> sum n (fun j => A i j * u j) = 0) -> forall j, (j < n)%nat -> u j = 0) ->
    forall i, (i < n)%nat -> sum n (fun j => A i j * slv A b j) = b i.
Definition regular (n : nat) (A : matrix) : Prop :=
  forall u, (forall i, (i < n)%nat -> sum n (fun j => A i j * u j) = 0) -> forall j, (j < n)%nat -> u j = 0.
Theorem C64_steady_state_partial : forall c mass jac force slv ampl fuel s s',
  p_dt c <> 0 -> p_beta c = 1 -> solves_exactly (p_n c) slv ->
  (forall k, (1 <= k)%nat -> regular (p_n c) (lhs c mass jac (s_index1 s) (s_time s) k)) ->
  (forall i t a, (a < p_n c)%nat -> sum (p_n c) (fun b => jac i t a b * s_dsol0 s b) + force i t a = 0) ->
  sensitivity_solve c mass jac force slv ampl fuel s = Ok s' ->
  forall j, (j < p_n c)%nat -> s_dsol0 s' j = s_dsol0 s j.
Proof.
  intros c mass jac force slv ampl fuel s s' Hdt Hb Hex Hreg Hst E j Hj.
  destruct (C22_first_acceptable_trial c mass jac force slv ampl fuel s s' Hdt E) as (k & Hk & _ & _ & Hd).
  destruct Hd as [(_ & _ & H)|(_ & _ & H)]; [|now rewrite H].
  rewrite H. set (A := lhs c mass jac (s_index1 s) (s_time s) k) in *.
  set (r := rhs c mass force (s_index1 s) (s_time s) (s_dsol0 s) k).
  specialize (Hreg k Hk). fold A in Hreg.
  apply Rminus_diag_uniq. apply (Hreg (fun j => slv A r j - s_dsol0 s j)); auto.
  intros i Hi. rewrite (sum_ext _ _ (fun j => A i j * slv A r j - A i j * s_dsol0 s j)) by (intros; unfold Rminus; ring).
  rewrite sum_minus, (Hex A r Hreg i Hi). unfold r, rhs, A, lhs. rewrite Hb.
  rewrite (sum_ext _ (fun b => (mean_mass c mass (s_index1 s) (s_time s) k i b + 1 * int_jac c jac (s_index1 s) (s_time s) k i b) * s_dsol0 s b)
    (fun b => mean_mass c mass (s_index1 s) (s_time s) k i b * s_dsol0 s b +
              int_jac c jac (s_index1 s) (s_time s) k i b * s_dsol0 s b)) by (intros; ring).
  rewrite sum_plus. unfold int_force, int_jac.
  rewrite (sum_ext _ (fun b => p_dt c * sum k (fun q => at_step c (s_index1 s) (s_time s) jac q i b) * s_dsol0 s b) (fun b => p_dt c * sum k (fun q => at_step c (s_index1 s) (s_time s) jac q i b * s_dsol0 s b)))
    by (intros; rewrite sum_scal_r; ring).
  rewrite sum_scal_l, sum_swap.
  assert (Z : sum k (fun q => sum (p_n c) (fun b => at_step c (s_index1 s) (s_time s) jac q i b * s_dsol0 s b))
            + sum k (fun q => at_step c (s_index1 s) (s_time s) force q i) = 0).
  { rewrite <- sum_plus. apply sum_0. intros q _. unfold at_step. apply Hst; auto. }
  match type of Z with ?a + ?b = 0 => set (S1 := a) in *; set (S2 := b) in * end.
  match goal with |- ?m + _ - _ = 0 => set (S3 := m) end.
  match goal with |- _ - (_ + _ * ?m) = 0 => change m with S1 end.
  match goal with |- _ + _ * ?m - _ = 0 => change m with S2 end.
  replace S2 with (- S1) by lra. ring.
Qed.
Print Assumptions C64_steady_state_partial.
Example C64_nonvacuous :
  solves_exactly 1 ex_slv /\
  (forall k, (1 <= k)%nat -> regular 1 (lhs ex_c (fun _ _ _ _ => 1) (fun _ _ _ _ => 1) 0 0 k)) /\
  (forall i (t : R) a, (a < 1)%nat -> sum 1 (fun b => 1 * s_dsol0 ex_s b) + (fun (_ : nat) (_ : R) (_ : nat) => -1) i t a = 0).
Proof.
  split; [|split].
  - intros A b Hr i Hi. assert (i = 0%nat) by lia. subst. simpl. unfold ex_slv.
    assert (A 0%nat 0%nat <> 0).
    { intros Z. assert (X := Hr (fun _ => 1)). cut (1 = 0); [lra|]. apply (X) with (j := 0%nat); [|lia].
      intros i Hi'. assert (i = 0%nat) by lia. subst. simpl. rewrite Z. ring. }
    field. auto.
  - intros [|k] Hk u H j Hj; [lia|]. assert (j = 0%nat) by lia. subst j. specialize (H 0%nat ltac:(lia)).
    unfold lhs, mean_mass, int_jac, at_step in H. cbn [sum p_dt p_beta ex_c] in H.
    assert (S1 : sum k (fun _ => 1) + 1 = INR (S k)) by (rewrite sum_const, S_INR; ring).
    rewrite S1 in H. assert (0 < INR (S k)) by (apply lt_0_INR; lia).
    replace (INR (S k) / INR (S k)) with 1 in H by (field; lra).
    assert (u 0%nat * (1 + INR (S k)) = 0) by lra. apply Rmult_integral in H1. destruct H1; auto; lra.
  - intros; simpl. lra.
Qed.

(** With beta <> 1 the right-hand side lacks the term -(1-beta) Jint x0, and a steady sensitivity is not
    preserved (here beta = 1/2: 1 becomes 4/3). *)
Theorem C64_steady_state_refuted : exists c mass jac force slv ampl fuel s s',
  p_dt c <> 0 /\ solves_exactly (p_n c) slv /\ 0 < p_beta c < 1 /\
  (forall i t a, (a < p_n c)%nat -> sum (p_n c) (fun b => jac i t a b * s_dsol0 s b) + force i t a = 0) /\
  sensitivity_solve c mass jac force slv ampl fuel s = Ok s' /\
  s_dsol0 s 0%nat = 1 /\ s_dsol0 s' 0%nat = 4/3.
Proof.
  pose (c := mkP 1 1 (/2) 1 5).
  pose (f := fun (_ : nat) (_ : R) (_ : nat) => -1).
  destruct (C22_terminates c (fun _ _ _ _ => 1) (fun _ _ _ _ => 1) f ex_slv (fun _ _ _ _ => 0) 8 ex_s)
    as (s' & E); simpl; try lra; try lia.
  exists c, (fun _ _ _ _ => 1), (fun _ _ _ _ => 1), f, ex_slv, (fun _ _ _ _ => 0), 8%nat, ex_s, s'.
  split; [simpl; lra|]. split; [apply C64_nonvacuous|]. split; [simpl; lra|].
  split; [intros; simpl; unfold f; lra|]. split; [exact E|]. split; [reflexivity|].
  destruct (C22_first_acceptable_trial c _ _ _ _ _ _ _ _ ltac:(simpl; lra) E) as (k & Hk & _ & Hj & Hd).
  assert (k = 1%nat).
  { destruct (Nat.eq_dec k 1); auto. destruct (Hj 1%nat ltac:(lia)) as (X & _). simpl in X. lra. }
  subst k. destruct Hd as [(_ & _ & ->)|(H & _)]; [|simpl in H; lra].
  unfold ex_slv, lhs, rhs, mean_mass, int_jac, int_force, at_step, f; simpl. field.
Qed.
Print Assumptions C64_steady_state_refuted.

(** C65: the integral of the output sensitivity.  Missing: see the refutation. *)
Theorem C65_interval_integral_partial : forall c out s,
  (s_index0 s < s_index1 s)%nat -> p_dt c <> 0 ->
  s_time s = s_t0 s + INR (s_index1 s - s_index0 s) * p_dt c ->
  exists tend, evaluate_q_sens c out s = Ok (
    p_dt c * sum (s_index1 s - s_index0 s) (fun k =>
      out (s_index1 s) (s_t0 s + p_dt c * INR k)
        (fun i => s_dsol0 s i + (INR k / INR (s_index1 s - s_index0 s)) * (s_dsol1 s i - s_dsol0 s i))), tend).
Proof.
  intros c out s Hi Hdt Ht. unfold evaluate_q_sens, assert_. assert (Hb := Hi). apply Nat.ltb_lt in Hb. rewrite Hb.
  eexists. rewrite qloop. f_equal. f_equal. rewrite Rplus_0_l. f_equal. apply sum_ext. intros k Hk. f_equal.
  extensionality i. unfold addv, vzero. rewrite Ht.
  assert (INR (s_index1 s - s_index0 s) <> 0) by (apply not_0_INR; lia).
  field. split; auto.
  replace (s_t0 s + INR (s_index1 s - s_index0 s) * p_dt c - s_t0 s) with (INR (s_index1 s - s_index0 s) * p_dt c) by ring.
  apply Rmult_integral_contrapositive; auto.
Qed.
Print Assumptions C65_interval_integral_partial.

(** After an accepted call the two stored sensitivities coincide, every sub-step reads the nonlinear solution of
    the end of the interval, and the clock of the system is left one sub-step before the end. *)
Theorem C65_interval_integral_refuted : forall c mass jac force slv ampl fuel s s' out,
  p_dt c <> 0 -> sensitivity_solve c mass jac force slv ampl fuel s = Ok s' ->
  (forall M0 M1 b x, ampl M0 M1 b x <= p_max_amp c) ->
  s_index1 s' = S (s_index1 s) /\
  evaluate_q_sens c out s' = Ok (p_dt c * out (S (s_index1 s)) (s_time s) (s_dsol1 s'), s_time s).
Proof.
  intros c mass jac force slv ampl fuel s s' out Hdt E Hamp.
  destruct (C22_first_acceptable_trial c _ _ _ _ _ _ _ _ Hdt E) as (k & Hk & Hi & Hj & Hd).
  destruct (C22_averages c _ _ _ _ _ _ _ _ Hdt E) as (k' & Hk' & H0 & H1 & H2 & H3 & _).
  assert (k' = k) by lia. subst k'.
  assert (k = 1%nat).
  { destruct (Nat.eq_dec k 1); auto. destruct (Hj 1%nat ltac:(lia)) as (X & _).
    match type of X with _ < ?a => assert (a <= p_max_amp c) by apply Hamp end. lra. }
  subst k. split; [lia|].
  unfold evaluate_q_sens, assert_. rewrite H0, H1. replace (Nat.ltb (s_index1 s) (s_index1 s + 1)) with true
    by (symmetry; apply Nat.ltb_lt; lia).
  replace (s_index1 s + 1 - s_index1 s)%nat with 1%nat by lia. cbn [loop bind fst]. rewrite H2.
  replace (s_index1 s + 1)%nat with (S (s_index1 s)) by lia.
  replace (INR 0) with 0 by reflexivity. replace (s_time s + p_dt c * 0) with (s_time s) by ring.
  f_equal. f_equal. rewrite Rplus_0_l, Rmult_comm. f_equal. f_equal. extensionality i.
  replace (s_time s - s_time s) with 0 by ring. unfold Rdiv. rewrite Rmult_0_l. unfold addv, vzero.
  destruct Hd as [(_ & -> & ->)|(X & _)]; [ring|].
  match type of X with _ < ?a => assert (a <= p_max_amp c) by apply Hamp end. lra.
Qed.
Print Assumptions C65_interval_integral_refuted.
Example C65_nonvacuous : exists s',
  sensitivity_solve ex_c (fun _ _ _ _ => 1) (fun _ _ _ _ => 1) (fun _ _ _ => 0) ex_slv (fun _ _ _ _ => 0) 8 ex_s = Ok s'.
Proof. apply C22_terminates; simpl; lra || lia. Qed.
