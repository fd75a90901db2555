(** The assembly of a time step, and the layout and callbacks of the solver for coupled disciplines. *)
From Coq Require Import Reals.
From Coquelicot Require Import Coquelicot.
From Coq Require Import List Arith Bool Permutation Lia Lra FunctionalExtensionality.
From Verif Require Import Base BaseLemmas Sens_Model Sens_Spec Sens_Proofs Sens_Proofs2 Mph_Model Mph_Spec Mph_Proofs Mph_Proofs2 Mph_Proofs3.
Import ListNotations.
Open Scope R_scope.

(** ** C196 the layout of the coupled vector *)
(** Every entry of the coupled vector belongs to exactly one entry of one discipline, however the dofs are distributed
    over the processes, and there is room for all. *)
Theorem C196_partition : forall np nd loc,
  Permutation (flat_map (index_set np nd loc) (seq 0 nd)) (seq 0 (n_all np nd loc)) /\
  NoDup (flat_map (index_set np nd loc) (seq 0 nd)) /\
  (forall i, length (index_set np nd loc i) = n_of np loc i) /\
  n_all np nd loc = fold_right Nat.add O (map (fun i => fold_right Nat.add O (map (fun p => loc p i) (seq 0 np))) (seq 0 nd)).
Proof.
  intros np nd loc. split; [apply sets_partition|]. split; [apply sets_nodup|]. split; [intros; apply set_length|]. reflexivity.
Qed.
(** The dofs of a process stay on that process, in their order. *)
Theorem C196_local : forall np nd loc p i k, (p < np)%nat -> (i < nd)%nat -> (k < loc p i)%nat ->
  exists g, nth_error (index_set np nd loc i) (fold_right Nat.add O (map (fun q => loc q i) (seq 0 p)) + k) = Some g /\
    (fold_right Nat.add O (map (fun q => fold_right Nat.add O (map (loc q) (seq 0 nd))) (seq 0 p)) <= g <
     fold_right Nat.add O (map (fun q => fold_right Nat.add O (map (loc q) (seq 0 nd))) (seq 0 (S p))))%nat.
Proof.
  intros np nd loc p i k Hp Hi Hk. exists (start nd loc p i + k)%nat. split.
  - unfold index_set. replace np with (p + S (np - p - 1))%nat by lia. rewrite seq_app, flat_map_app. cbn [seq flat_map].
    assert (L : length (flat_map (fun p0 => seq (start nd loc p0 i) (loc p0 i)) (seq 0 p)) = nsum p (fun q => loc q i)).
    { unfold nsum. induction (seq 0 p) as [|a l IH]; cbn; [reflexivity|]. rewrite app_length, seq_length, IH. reflexivity. }
    fold (nsum p (fun q => loc q i)). rewrite nth_error_app2 by lia. rewrite L.
    replace (nsum p (fun q => loc q i) + k - nsum p (fun q => loc q i))%nat with k by lia.
    rewrite nth_error_app1 by (rewrite seq_length; auto). cbn [Nat.add].
    rewrite (nth_error_nth' _ O) by (rewrite seq_length; auto). now rewrite seq_nth.
  - change (nsum p (fun q => nsum nd (loc q)) <= start nd loc p i + k < nsum (S p) (fun q => nsum nd (loc q)))%nat.
    rewrite nsum_S. unfold start.
    assert (H : (nsum i (loc p) + loc p i <= nsum nd (loc p))%nat).
    { rewrite <- nsum_S. replace nd with (S i + (nd - S i))%nat by lia. generalize (nd - S i)%nat as m.
      induction m as [|m IH]; [rewrite Nat.add_0_r; auto|]. rewrite <- plus_n_Sm, (nsum_S (S i + m)). lia. }
    lia.
Qed.
(** Copying the solutions of the disciplines into the coupled vector and reading the blocks gives them back; copying out
    changes the existing entries only. *)
Theorem C196_roundtrip : forall np nd loc s x, let y := copy_in np nd loc s x in
  (forall i k, (i < nd)%nat -> (k < n_of np loc i)%nat -> y (nth k (index_set np nd loc i) O) = s i k) /\
  (forall s' i k, (i < nd)%nat -> (k < n_of np loc i)%nat -> copy_out np nd loc y s' i k = s i k) /\
  (forall s' i k, (i < nd)%nat -> (n_of np loc i <= k)%nat -> copy_out np nd loc y s' i k = s' i k).
Proof.
  intros np nd loc s x y. split; [|split].
  - intros i k Hi Hk. apply (copy_in_sub np nd loc s x i k Hi Hk).
  - intros s' i k Hi Hk. rewrite copy_out_at by auto. destruct (Nat.ltb_spec k (n_of np loc i)); [|lia]. now apply copy_in_sub.
  - intros s' i k Hi Hk. rewrite copy_out_at by auto. destruct (Nat.ltb_spec k (n_of np loc i)); [lia|auto].
Qed.
Example C196_example : let loc := fun p i => match p, i with O, O => 2%nat | O, _ => 1%nat | _, O => 1%nat | _, _ => 2%nat end in
  index_set 2 2 loc 0 = [0%nat; 1%nat; 3%nat] /\ index_set 2 2 loc 1 = [2%nat; 4%nat; 5%nat] /\ n_all 2 2 loc = 6%nat.
Proof. repeat split. Qed.

(** ** C197 the residual of the coupled system *)
(** After every history of evaluations (any state of the data of the update object) the residual has in each block the
    residual of the discipline at its constrained solution with data updated for exactly these solutions; the norms are those of
    the blocks and of the whole; the solutions stored in the systems are not touched. *)
Theorem C197_residual : forall np nd loc s D u x r, complete nd s D -> (forall i, (i < nd)%nat -> rows_ok (n_of np loc i) (D i)) ->
  (forall i, (i < nd)%nat -> local_disc (n_of np loc i) (D i)) -> local_updater np nd loc u -> update s = Some u ->
  exists s' x' r' norms,
    snes_residual np nd loc s x r = Ok (s', x', r', norms, sqrt (sum (n_all np nd loc) (fun g => r' g ^ 2))) /\
    (let X := constrained_sols D (fun i k => x (nth k (index_set np nd loc i) O)) in
     (forall i k, (i < nd)%nat -> (k < n_of np loc i)%nat -> r' (nth k (index_set np nd loc i) O) = coupled D u X i k) /\
     (forall i, (i < nd)%nat -> satisfies (n_of np loc i) (D i) (X i)) /\
     (forall i k, (i < nd)%nat -> (k < n_of np loc i)%nat -> x' (nth k (index_set np nd loc i) O) = X i k)) /\
    length norms = nd /\
    (forall i, (i < nd)%nat -> nth i norms 0 = sqrt (sum (n_of np loc i) (fun k => r' (nth k (index_set np nd loc i) O) ^ 2))) /\
    sols s' = sols s /\ mats s' = mats s.
Proof.
  intros np nd loc s D u x r C R LD LU U. destruct (residual_ok np nd loc s D x r C R) as (x' & r' & norms & E & _ & H & OO & V & N1 & N2).
  eexists _, x', r', norms. split; [exact E|]. split; [|split; [auto|]; split; [exact N2|split; reflexivity]].
  intros X. change (same np nd loc (subs np nd loc x') X) in H. split; [|split].
  - intros i k Hi Hk. change (r' (nth k (index_set np nd loc i) O)) with (subs np nd loc r' i k). rewrite V by auto.
    unfold coupled, with_update. rewrite U. rewrite (proj1 LU _ X i H). apply (LD i Hi); auto.
  - now apply sat_after.
  - intros i k Hi Hk. exact (H i k Hi Hk).
Qed.
(** An iterate that satisfies the constraints is left as it is. *)
Theorem C197_argument_partial : forall np nd loc s D x r, complete nd s D -> (forall i, (i < nd)%nat -> rows_ok (n_of np loc i) (D i)) ->
  (forall i, (i < nd)%nat -> satisfies (n_of np loc i) (D i) (fun k => x (nth k (index_set np nd loc i) O))) ->
  exists s' x' r' norms l2, snes_residual np nd loc s x r = Ok (s', x', r', norms, l2) /\ forall g, x' g = x g.
Proof.
  intros np nd loc s D x r C R S. destruct (residual_ok np nd loc s D x r C R) as (x' & r' & norms & E & _ & H & OO & _).
  eexists _, x', r', norms, _. split; [exact E|]. intros g. destruct (Nat.lt_ge_cases g (n_all np nd loc)); [|auto].
  apply (same_global np nd loc x' x); auto. exact (sat_fixed np nd loc D x x' H S).
Qed.
(** Missing disciplines stop the evaluation. *)
Theorem C197_missing : forall np nd loc s x r i, (i < nd)%nat -> assem s i = None -> snes_residual np nd loc s x r = Fault AssertFailed.
Proof.
  intros np nd loc s x r i Hi E. unfold snes_residual.
  assert (H : constrain_all np nd loc s x = Fault AssertFailed); [|now rewrite H].
  unfold constrain_all. set (b := fun i x => _).
  assert (A : forall m, (exists y, loop m b x = Ok y) \/ loop m b x = Fault AssertFailed).
  { induction m as [|m [[y IH]|IH]]; cbn [loop]; [eauto| |]; rewrite IH; cbn [bind]; auto.
    unfold b, get_system_assembly, assert_. destruct (m <? nd)%nat; cbn; auto. destruct (assem s m); cbn; eauto. }
  assert (B : forall m, (i < m)%nat -> loop m b x = Fault AssertFailed); [|auto].
  induction m as [|m IH]; intros Hm; [lia|]. cbn [loop]. destruct (Nat.eq_dec i m) as [<-|Ne]; [|rewrite IH by lia; reflexivity].
  destruct (A i) as [[y ->]| ->]; cbn [bind]; auto. unfold b, get_system_assembly. rewrite E. destruct (i <? nd)%nat; reflexivity.
Qed.

(** One discipline with one dof that is fixed at 2. *)
Definition fixed2 : disc := mkD (fun _ => Some ([], 2)) (fun _ x k => x k) (fun _ _ k l => if (k =? l)%nat then 1 else 0) (fun _ _ _ dx k => dx k).
Definition idle : updater := mkU (fun _ _ _ => 0) (fun _ _ _ => (fun _ => 0, fun _ => 0)).
Definition mst0 (d : disc) (u : option updater) : mst :=
  mkM (fun _ => Some d) u (fun _ _ => 0) (fun _ _ => 0) (fun _ => mzero) (fun _ => zero) (fun _ => zero).
Definition one : nat -> nat -> nat := fun _ _ => 1%nat.
(** The evaluation of the residual changes an iterate that does not: it is PETSc's own vector. *)
Theorem C197_argument_refuted : exists np nd loc s x r s' x' r' norms l2, complete nd s (fun _ => fixed2) /\
  (forall i, (i < nd)%nat -> rows_ok (n_of np loc i) fixed2) /\
  snes_residual np nd loc s x r = Ok (s', x', r', norms, l2) /\ x O = 0 /\ x' O = 2 /\ (O < n_all np nd loc)%nat.
Proof.
  exists 1%nat, 1%nat, one, (mst0 fixed2 (Some idle)), zero, zero. eexists _, _, _, _, _.
  split; [intros i _; reflexivity|]. split; [intros i _ k r c E j w Hj; cbn in E; injection E as <- _; destruct Hj|].
  split; [reflexivity|]. split; [reflexivity|]. split; [|cbn; lia]. cbn. unfold enf, put; cbn. ring.
Qed.
