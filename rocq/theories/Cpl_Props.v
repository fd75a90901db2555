(** C176: the rows that tie a slave node to its masters. *)
From Coq Require Import Reals List Arith Bool Lia Lra.
From Verif Require Import Base RBool Cpl_Model Cpl_Spec Cpl_Proofs.
Import ListNotations.
Open Scope R_scope.

Theorem C176_weights : forall pos s ms, ms <> [] ->
  lsum (map (weight pos s ms) ms) = 1 /\ (forall m, 0 < weight pos s ms m).
Proof.
  intros pos s ms H. split; [apply weights_one; exact H|]. intros m.
  apply Rdiv_lt_0_compat; [apply exp_pos|apply csum_pos; exact H].
Qed.
Theorem C176_closer : forall pos s ms m m', ms <> [] ->
  (d3 (pos s) (pos m) < d3 (pos s) (pos m') <-> weight pos s ms m' < weight pos s ms m).
Proof.
  intros pos s ms m m' H. pose proof (csum_pos pos s ms H) as P. change (d3 (pos s) (pos m)) with (dist pos s m).
  change (d3 (pos s) (pos m')) with (dist pos s m'). unfold weight, closeness. split; intros L.
  - apply Rmult_lt_compat_r; [apply Rinv_0_lt_compat; exact P|]. apply exp_increasing. lra.
  - apply Rmult_lt_reg_r in L; [|apply Rinv_0_lt_compat; exact P]. apply exp_lt_inv in L. lra.
Qed.
(** The ratio of two weights depends on the two distances only. *)
Theorem C176_ratio : forall pos s ms m m', ms <> [] ->
  weight pos s ms m = weight pos s ms m' * exp (d3 (pos s) (pos m') - d3 (pos s) (pos m)).
Proof.
  intros pos s ms m m' H. change (d3 (pos s) (pos m)) with (dist pos s m). change (d3 (pos s) (pos m')) with (dist pos s m').
  pose proof (csum_pos pos s ms H) as P. unfold weight, closeness.
  replace (- dist pos s m) with (- dist pos s m' + (dist pos s m' - dist pos s m)) by ring. rewrite exp_plus. field. lra.
Qed.
(** The rows: one for every tied dof of the slave, in order, with zero right hand side; a field satisfies them
    exactly when every translation of the slave is the weighted mean of the masters' translations plus (y) or minus
    (x, z) the lever arm term, and every tied rotation the weighted mean of the rotations. *)
Theorem C176_value : forall pos dofs d s ms rot, six dofs d -> NoDup ms ->
  exists l, get_dof_constraint_row pos dofs s ms rot = Ok l /\
    tied l = map (d s) (seq 0 (if rot then 6 else 3)) /\
    (forall c, In c l -> snd c = 0) /\
    forall u, (forall c, In c l -> holds u c) <->
      ((forall i, (i < 3)%nat -> u (d s i) =
          mean ms (weight pos s ms) (fun m => u (d m i) + sgn i * cross (rot_of d u m) (rel pos s m) i)) /\
       (rot = true -> forall i, (3 <= i < 6)%nat -> u (d s i) = mean ms (weight pos s ms) (fun m => u (d m i)))).
Proof.
  intros pos dofs d s ms rot S N. unfold get_dof_constraint_row.
  assert (B : (0 + n_constrain rot <= 6)%nat) by (destruct rot; cbn; lia).
  destruct (rows_ok pos dofs d S s ms (n_constrain rot) 0 N B) as [l [E [K [Z U]]]].
  exists l. split; [exact E|]. split; [exact K|]. split; [exact Z|]. intros u. rewrite (U u).
  assert (T3 : forall i, (i < 3)%nat -> mean ms (weight pos s ms) (fun m => term pos d s m u i) =
     mean ms (weight pos s ms) (fun m => u (d m i) + sgn i * cross (rot_of d u m) (rel pos s m) i)).
  { intros i I. apply mean_ext. intros m _. unfold term. rewrite (proj2 (Nat.ltb_lt i 3) I). reflexivity. }
  assert (T6 : forall i, (3 <= i)%nat -> mean ms (weight pos s ms) (fun m => term pos d s m u i) =
     mean ms (weight pos s ms) (fun m => u (d m i))).
  { intros i I. apply mean_ext. intros m _. unfold term. rewrite (proj2 (Nat.ltb_ge i 3) I). ring. }
  split.
  - intros A. split.
    + intros i I. rewrite <- T3 by exact I. apply A. destruct rot; cbn; lia.
    + intros R i I. subst. rewrite <- T6 by lia. apply A. cbn. lia.
  - intros [A C] j J. destruct (Nat.lt_ge_cases j 3).
    + rewrite T3 by assumption. apply A. assumption.
    + rewrite T6 by assumption. destruct rot; cbn in J; [apply C; [reflexivity|lia]|lia].
Qed.
(** A common translation of the masters without rotation is the slave's translation. *)
Theorem C176_translation : forall pos dofs d s ms rot l u (a : nat -> R), six dofs d -> NoDup ms -> ms <> [] ->
  get_dof_constraint_row pos dofs s ms rot = Ok l ->
  (forall m i, In m ms -> (i < 3)%nat -> u (d m i) = a i /\ u (d m (3 + i)%nat) = 0) ->
  ((forall c, In c l -> holds u c) <->
   (forall i, (i < 3)%nat -> u (d s i) = a i /\ (rot = true -> u (d s (3 + i)%nat) = 0))).
Proof.
  intros pos dofs d s ms rot l u a S N NE E H. destruct (C176_value pos dofs d s ms rot S N) as [l' [E' [_ [_ U]]]].
  rewrite E in E'. injection E' as <-. rewrite U. pose proof (weights_one pos s ms NE) as W.
  assert (T : forall i, (i < 3)%nat ->
     mean ms (weight pos s ms) (fun m => u (d m i) + sgn i * cross (rot_of d u m) (rel pos s m) i) = a i).
  { intros i I. rewrite (mean_ext _ _ _ (fun _ => a i)); [apply mean_const; exact W|]. intros m M.
    rewrite (proj1 (H m i M I)).
    assert (R : forall j, (j < 3)%nat -> rot_of d u m j = 0) by (intros j J; apply (H m j M J)).
    unfold cross. destruct i as [|[|i]]; rewrite ?(R 0%nat), ?(R 1%nat), ?(R 2%nat) by lia; ring. }
  assert (T6 : forall i, (i < 3)%nat -> mean ms (weight pos s ms) (fun m => u (d m (3 + i)%nat)) = 0).
  { intros i I. rewrite (mean_ext _ _ _ (fun _ => 0)); [apply mean_const; exact W|]. intros m M. apply (H m i M I). }
  split.
  - intros [A C] i I. split; [rewrite <- (T i I); apply A; exact I|]. intros R. rewrite <- (T6 i I). apply C; [exact R|lia].
  - intros A. split; [intros i I; rewrite T by exact I; apply A; exact I|].
    intros R i I. replace i with (3 + (i - 3))%nat by lia. rewrite T6 by lia. apply (A (i - 3)%nat); [lia|exact R].
Qed.

(** Rigid motions u = a + om x X of masters and slave. *)
Lemma rigid_terms : forall pos d s ms u a om, ms <> [] -> (forall m, In m ms -> rigid d pos u a om m) ->
  forall i, (i < 3)%nat ->
  mean ms (weight pos s ms) (fun m => u (d m i) + sgn i * cross (rot_of d u m) (rel pos s m) i) =
  a i + cross om (pos s) i +
    (sgn i - 1) * cross om (fun k => pos s k - mean ms (weight pos s ms) (fun m => pos m k)) i.
Proof.
  intros pos d s ms u a om NE H i I. pose proof (weights_one pos s ms NE) as W.
  set (w := weight pos s ms) in *.
  rewrite (mean_ext ms w _ (fun m => a i + sgn i * cross om (pos s) i + (1 - sgn i) * cross om (pos m) i)).
  2:{ intros m M. destruct (H m M i I) as [A _]. rewrite A.
      assert (R : forall j, (j < 3)%nat -> rot_of d u m j = om j) by (intros j J; apply (H m M j J)).
      unfold cross, rel. destruct i as [|[|i]]; rewrite ?(R 0%nat), ?(R 1%nat), ?(R 2%nat) by lia; ring. }
  rewrite mean_plus, (mean_scal ms w (fun m => cross om (pos m) i)), mean_const by exact W.
  assert (L : forall j k a b, mean ms w (fun m => a * pos m j - b * pos m k) =
     a * mean ms w (fun m => pos m j) - b * mean ms w (fun m => pos m k)).
  { intros j k x y. rewrite <- !mean_scal.
    replace (mean ms w (fun m => x * pos m j) - mean ms w (fun m => y * pos m k))
      with (mean ms w (fun m => x * pos m j) + -1 * mean ms w (fun m => y * pos m k)) by ring.
    rewrite <- mean_scal, <- mean_plus. apply mean_ext. intros. ring. }
  unfold cross. destruct i as [|[|i]]; rewrite L; unfold sgn; ring.
Qed.
(** What a rigid motion has to satisfy to be compatible with the rows. *)
Theorem C176_rigid_partial : forall pos dofs d s ms rot l u a om, six dofs d -> NoDup ms -> ms <> [] ->
  get_dof_constraint_row pos dofs s ms rot = Ok l ->
  (forall m, In m ms -> rigid d pos u a om m) -> rigid d pos u a om s ->
  let off := fun k => pos s k - mean ms (weight pos s ms) (fun m => pos m k) in
  (forall c, In c l -> holds u c) <-> cross om off 0 = 0 /\ cross om off 2 = 0.
Proof.
  intros pos dofs d s ms rot l u a om S N NE E H Hs off.
  destruct (C176_value pos dofs d s ms rot S N) as [l' [E' [_ [_ U]]]]. rewrite E in E'. injection E' as <-. rewrite U.
  assert (R6 : forall i, (3 <= i < 6)%nat -> u (d s i) = mean ms (weight pos s ms) (fun m => u (d m i))).
  { intros i I. rewrite (mean_ext _ _ _ (fun _ => om (i - 3)%nat)).
    - rewrite mean_const by (apply weights_one; exact NE). replace i with (3 + (i - 3))%nat at 1 by lia. apply (Hs (i - 3)%nat). lia.
    - intros m M. replace i with (3 + (i - 3))%nat at 1 by lia. apply (H m M (i - 3)%nat). lia. }
  assert (T := rigid_terms pos d s ms u a om NE H). fold off in T.
  split.
  - intros [A _]. split.
    + specialize (A 0%nat ltac:(lia)). rewrite T in A by lia. rewrite (proj1 (Hs 0%nat ltac:(lia))) in A. unfold sgn in A. lra.
    + specialize (A 2%nat ltac:(lia)). rewrite T in A by lia. rewrite (proj1 (Hs 2%nat ltac:(lia))) in A. unfold sgn in A. lra.
  - intros [A B]. split; [|intros _; exact R6]. intros i I. rewrite T by exact I. rewrite (proj1 (Hs i I)).
    destruct i as [|[|[|i]]]; [rewrite A; ring|unfold sgn; ring|rewrite B; ring|lia].
Qed.
(** In y the slave follows every rigid motion of the masters. *)
Theorem C176_y_partial : forall pos dofs d s ms rot l u a om, six dofs d -> NoDup ms -> ms <> [] ->
  get_dof_constraint_row pos dofs s ms rot = Ok l ->
  (forall m, In m ms -> rigid d pos u a om m) -> (forall c, In c l -> holds u c) ->
  u (d s 1%nat) = a 1%nat + cross om (pos s) 1.
Proof.
  intros pos dofs d s ms rot l u a om S N NE E H C.
  destruct (C176_value pos dofs d s ms rot S N) as [l' [E' [_ [_ U]]]]. rewrite E in E'. injection E' as <-.
  apply U in C. destruct C as [C _]. rewrite (C 1%nat) by lia.
  rewrite (rigid_terms pos d s ms u a om NE H 1) by lia. unfold sgn. ring.
Qed.
(** In x and z the lever arm term has the wrong sign: one master, and any rigid motion. *)
Theorem C176_mirrored : forall pos dofs d s m rot l u a om, six dofs d ->
  get_dof_constraint_row pos dofs s [m] rot = Ok l -> rigid d pos u a om m -> (forall c, In c l -> holds u c) ->
  forall i, i = 0%nat \/ i = 2%nat ->
  u (d s i) = u (d m i) - cross om (rel pos s m) i.
Proof.
  intros pos dofs d s m rot l u a om S E H C i I.
  destruct (C176_value pos dofs d s [m] rot S ltac:(repeat constructor; intros [])) as [l' [E' [_ [_ U]]]]. rewrite E in E'. injection E' as <-.
  apply U in C. destruct C as [C _].
  assert (W := weights_one pos s [m] ltac:(discriminate)). unfold lsum in W. cbn in W.
  assert (W1 : weight pos s [m] m = 1) by lra.
  destruct I; subst; rewrite C by lia; unfold mean, lsum; cbn; rewrite W1;
    rewrite (proj1 (H 0%nat ltac:(lia))) || rewrite (proj1 (H 2%nat ltac:(lia)));
    unfold rot_of; cbn [Nat.add];
    rewrite ?(proj2 (H 0%nat ltac:(lia))), ?(proj2 (H 1%nat ltac:(lia))), ?(proj2 (H 2%nat ltac:(lia)));
    rewrite ?(proj1 (H 0%nat ltac:(lia))), ?(proj1 (H 2%nat ltac:(lia))).
  - change (u (d m 4%nat)) with (u (d m (3 + 1)%nat)). change (u (d m 5%nat)) with (u (d m (3 + 2)%nat)).
    rewrite (proj2 (H 1%nat ltac:(lia))), (proj2 (H 2%nat ltac:(lia))). unfold cross, rel. ring.
  - change (u (d m 3%nat)) with (u (d m (3 + 0)%nat)). change (u (d m 4%nat)) with (u (d m (3 + 1)%nat)).
    rewrite (proj2 (H 0%nat ltac:(lia))), (proj2 (H 1%nat ltac:(lia))). unfold cross, rel. ring.
Qed.
(** The rows hold back a rigid rotation whenever the slave is not at the weighted centre of its masters. *)
Theorem C176_rigid_refuted : forall pos dofs d s ms rot l, six dofs d -> NoDup ms -> ms <> [] ->
  get_dof_constraint_row pos dofs s ms rot = Ok l ->
  (exists k, (k < 3)%nat /\ pos s k <> mean ms (weight pos s ms) (fun m => pos m k)) ->
  exists om, forall u a, (forall m, In m (s :: ms) -> rigid d pos u a om m) -> ~ (forall c, In c l -> holds u c).
Proof.
  intros pos dofs d s ms rot l S N NE E [k [K D]].
  exists (fun i => if (i =? match k with 1%nat => 2%nat | _ => 1%nat end)%nat then 1 else 0).
  intros u a H C.
  apply (C176_rigid_partial pos dofs d s ms rot l u a _ S N NE E (fun m M => H m (or_intror M)) (H s (or_introl eq_refl))) in C.
  unfold cross in C. destruct k as [|[|[|k]]]; cbn in C; try lia; apply D; lra.
Qed.
(** A master with fewer than six dofs is read past its end, whether or not rotations are tied. *)
Theorem C176_few_dofs_refuted : forall pos dofs s ms rot m, In m ms -> (length (dofs m) < 6)%nat ->
  get_dof_constraint_row pos dofs s ms rot = Fault OutOfBounds.
Proof.
  intros pos dofs s ms rot m M L. unfold get_dof_constraint_row.
  assert (A : forall A (l : list A) i, at_ l i = Fault OutOfBounds \/ exists a, at_ l i = Ok a)
    by (intros B l i; unfold at_; destruct (nth_error l i); eauto).
  assert (N5 : at_ (dofs m) 5 = Fault OutOfBounds).
  { unfold at_. rewrite (proj2 (nth_error_None (dofs m) 5)) by lia. reflexivity. }
  assert (E0 : forall n w row, master_entries pos dofs s n w 0 row = Fault OutOfBounds \/ exists r, master_entries pos dofs s n w 0 row = Ok r).
  { intros n w row. unfold master_entries. destruct (A _ (dofs n) 0%nat) as [X|[x X]]; rewrite X; cbn; auto.
    destruct (A _ (dofs n) 4%nat) as [Y|[y Y]]; rewrite Y; cbn; auto.
    destruct (A _ (dofs n) 5%nat) as [Z|[z Z]]; rewrite Z; cbn; eauto. }
  assert (Em : forall w row, master_entries pos dofs s m w 0 row = Fault OutOfBounds).
  { intros w row. unfold master_entries. destruct (A _ (dofs m) 0%nat) as [X|[x X]]; rewrite X; cbn; auto.
    destruct (A _ (dofs m) 4%nat) as [Y|[y Y]]; rewrite Y; cbn; auto. rewrite N5. reflexivity. }
  assert (R : forall w l row, In m l -> row_of pos dofs s l w 0 row = Fault OutOfBounds).
  { intros w. induction l as [|n l IH]; intros row I; [destruct I|]; destruct I as [I|I]; cbn [row_of].
    - subst. rewrite Em. reflexivity.
    - destruct (E0 n (w n) row) as [X|[r X]]; rewrite X; cbn; [reflexivity|apply IH; exact I]. }
  assert (Q : forall k, rows_from pos dofs s ms 0 (S k) = Fault OutOfBounds).
  { intros k. cbn [rows_from]. destruct (A _ (dofs s) 0%nat) as [X|[x X]]; rewrite X; cbn; [reflexivity|]. rewrite R by exact M. reflexivity. }
  destruct rot; apply Q.
Qed.
(** Six dofs per node: the numbering used by the examples below; nodes on a line. *)
Definition ex_d (n i : nat) : nat := (6 * n + i)%nat.
Definition ex_dofs (n : nat) : list nat := map (ex_d n) (seq 0 6).
Definition ex_pos (n k : nat) : R := if (k =? 0)%nat then INR n else 0.
Example C176_six : six ex_dofs ex_d.
Proof. split; [reflexivity|]. unfold ex_d. intros. lia. Qed.
(** a slave two units away from its only master, turned about y: the deflection comes out upside down *)
Example C176_witness : exists l, get_dof_constraint_row ex_pos ex_dofs 2 [0%nat] true = Ok l /\ length l = 6%nat /\
  exists om, forall u a, (forall m, In m [2%nat; 0%nat] -> rigid ex_d ex_pos u a om m) -> ~ (forall c, In c l -> holds u c).
Proof.
  destruct (C176_value ex_pos ex_dofs ex_d 2 [0%nat] true C176_six ltac:(repeat constructor; intros [])) as [l [E [K _]]].
  exists l. split; [exact E|]. split; [pose proof (f_equal (@length nat) K) as Q; unfold tied in Q; rewrite !map_length in Q; exact Q|].
  apply (C176_rigid_refuted ex_pos ex_dofs ex_d 2 [0%nat] true l C176_six ltac:(repeat constructor; intros []) ltac:(discriminate) E).
  exists 0%nat. split; [lia|]. unfold mean, lsum. cbn. unfold ex_pos. cbn. lra.
Qed.
Print Assumptions C176_value.
Print Assumptions C176_rigid_refuted.
Print Assumptions C176_few_dofs_refuted.
