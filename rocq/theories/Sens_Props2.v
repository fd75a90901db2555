(** A concrete problem that meets the hypotheses of C108 - C114: two springs in a row and a spring to ground
    on a hanging dof, distributed over two processors.  dof 0 is fixed, dof 3 is the mean of dofs 1 and 2;
    the first spring's stiffness is parameter 0, the load at dof 2 is parameter 1, the output is the
    displacement at dof 2. *)
From Coq Require Import Reals Lra.
From Coquelicot Require Import Coquelicot.
From Coq Require Import List Arith Bool Permutation Lia.
From Verif Require Import Base BaseLemmas Sens_Model Sens_Spec Sens_Proofs Sens_Proofs2 Sens_Props.
Import ListNotations.
Open Scope R_scope.

Definition spring (k : params -> R) (dk : nat -> R) (q : bool) (ds : list nat) : elem := mkElem 0 ds
  (fun th x i => match i with O => k th * (x O - x 1%nat) | _ => - k th * (x O - x 1%nat) end)
  (fun th x i j => if (i =? j)%nat then k th else - k th)
  (fun th f x i => match i with O => dk f * (x O - x 1%nat) | _ => - dk f * (x O - x 1%nat) end)
  (fun _ _ _ _ => 0) q
  (fun _ x => x 1%nat) (fun _ _ i => if (i =? 1)%nat then 1 else 0) (fun _ _ _ dx => dx 1%nat).
Definition ground : elem := mkElem 0 [3%nat]
  (fun _ x _ => x O) (fun _ _ _ _ => 1) (fun _ _ _ _ => 0) (fun _ _ _ _ => 0)
  false (fun _ _ => 0) (fun _ _ _ => 0) (fun _ _ _ _ => 0).
Definition e1 : elem := spring (fun th => th O) (fun f => if (f =? 0)%nat then 1 else 0) false [0; 1]%nat.
Definition e2 : elem := spring (fun _ => 1) (fun _ => 0) true [1; 2]%nat.
Definition tip : pload := mkLoad [(7, [2])]%nat (fun th _ _ => th 1%nat)
  (fun _ f _ _ => if (f =? 1)%nat then 1 else 0).
Definition truss : sys := mkSys 4 1
  [mkRank [e1; ground] 0 2; mkRank [e2] 2 4] [tip] (fun _ => false)
  (fun d => match d with O => Some [] | 3%nat => Some [(1%nat, / 2); (2%nat, / 2)] | _ => None end)
  (fun _ => false) None.
Definition ones : params := fun _ => 1.
Definition path (t : R) : vec := fun d =>
  match d with
  | O => 0
  | 1%nat => 3 / 4 / (5 / 4 * t + 1)
  | 2%nat => (t + 5 / 4) / (5 / 4 * t + 1)
  | _ => (3 / 4 / (5 / 4 * t + 1) + (t + 5 / 4) / (5 / 4 * t + 1)) / 2
  end.
Definition dpath : vec := fun d =>
  match d with O => 0 | 1%nat => - (5 / 27) | 2%nat => - (1 / 9) | _ => - (4 / 27) end.

Ltac four d := destruct d as [|[|[|[|d]]]]; [| | | |exfalso; cbn in *; lia].
Lemma truss_owned : owned_once truss.
Proof. intros d Hd. four d; reflexivity. Qed.
Lemma truss_formed : well_formed truss.
Proof.
  split; [|split].
  - intros e He d Hd. cbn in He. destruct He as [<-|[<-|[<-|[]]]]; cbn in Hd; cbn; lia.
  - intros l nd ds [<-|[]] [H|[]]. injection H as <- <-. split; [reflexivity|]. intros d [<-|[]]; cbn; lia.
  - intros d r j c Hr Hj. cbn in Hr. destruct d as [|[|[|[|d]]]]; try discriminate.
    + injection Hr as <-. destruct Hj.
    + injection Hr as <-. destruct Hj as [Hj|[Hj|[]]]; injection Hj as <- <-; cbn; split; auto; lia.
Qed.
Lemma truss_sound th f X : dependence_sound truss th f X.
Proof. intros d Hd; discriminate. Qed.

Lemma d_lin2 (a b : R -> R) (da db c t : R) : is_derive a t da -> is_derive b t db ->
  is_derive (fun s => c * (a s - b s)) t (c * (da - db)).
Proof. intros A B. apply der_scal. now apply der_minus. Qed.
Lemma d_mul2 (a b : R -> R) (da db t : R) : is_derive a t da -> is_derive b t db ->
  is_derive (fun s => a s * b s) t (da * b t + a t * db).
Proof. intros A B. apply (is_derive_mult a b t da db A B). intros; apply Rmult_comm. Qed.

(** any spring whose stiffness depends on the parameters as declared *)
Lemma spring_diff (k : params -> R) (dk : nat -> R) q ds th f x : length ds = 2%nat ->
  is_derive (fun t => k (at_ th f t)) (th f) (dk f) -> k (at_ th f (th f)) = k th ->
  element_differentiable truss th f (spring k dk q ds) x.
Proof.
  intros L DK E p dp P D i Hi. cbn [spring edofs] in *. rewrite L in *.
  pose proof (D O ltac:(lia)) as D0. pose proof (D 1%nat ltac:(lia)) as D1.
  pose proof (P O ltac:(lia)) as P0. pose proof (P 1%nat ltac:(lia)) as P1.
  assert (M : is_derive (fun t => k (at_ th f t) * (p t O - p t 1%nat)) (th f)
     (dk f * (x O - x 1%nat) + k th * (dp O - dp 1%nat))).
  { pose proof (d_mul2 _ _ _ _ _ DK (der_minus _ _ _ _ _ D0 D1)) as M. cbv beta in M.
    now rewrite P0, P1, E in M. }
  destruct i as [|[|i]]; [| |lia].
  - eapply der_ext; [| |exact M]; [reflexivity|]. unfold dres_of; cbn; ring.
  - apply (der_scal (-1)) in M. eapply der_ext; [| |exact M]; intros; unfold dres_of; cbn; ring.
Qed.
Lemma at_same th f : at_ th f (th f) f = th f.
Proof. unfold at_. now rewrite Nat.eqb_refl. Qed.
Lemma path_ok : smooth_problem truss ones O (path 1) zero path dpath.
Proof.
  constructor.
  - reflexivity.
  - intros d Hd. four d; cbn; unfold ones.
    + apply @is_derive_const.
    + auto_derive; [lra|field].
    + auto_derive; [lra|field].
    + auto_derive; [lra|field].
  - unfold equilibrium_path. exists (mkposreal 1 Rlt_0_1). intros t Ht.
    assert (P : 0 < t). { apply Rabs_def2 in Ht. unfold ones, minus, plus, opp in Ht. cbn in Ht. lra. }
    split.
    + intros i Hi Hr. four i; try discriminate.
      * cbv -[Rplus Rmult Rminus Ropp Rinv Rdiv IZR]. field. lra.
      * cbv -[Rplus Rmult Rminus Ropp Rinv Rdiv IZR]. field. lra.
    + intros i r Hi Hr. four i; try discriminate; injection Hr as <-; cbv -[Rplus Rmult Rminus Ropp Rinv Rdiv IZR].
      * ring.
      * field. lra.
  - intros e He. cbn in He. destruct He as [<-|[<-|[<-|[]]]].
    + apply spring_diff; [reflexivity| |reflexivity].
      apply (der_ext (fun t => t) _ _ 1); [reflexivity|reflexivity|]. apply @is_derive_id.
    + intros p dp P D k Hk. cbn in Hk. assert (k = O) by lia. subst.
      apply (der_ext (fun t => p t O) _ _ (dp O)); [reflexivity|unfold dres_of; cbn; ring|]. apply D. cbn; lia.
    + apply spring_diff; [reflexivity| |reflexivity]. apply @is_derive_const.
  - intros l [<-|[]] nd ds k [H|[]] Hk. cbn. apply @is_derive_const.
  - intros e He p dp P D. cbn in He. destruct He as [<-|[<-|[<-|[]]]].
    + apply (der_ext (fun t => p t 1%nat) _ _ (dp 1%nat)); [reflexivity|cbn; unfold zero; ring|]. apply D. cbn; lia.
    + cbn. apply (der_ext (fun _ => 0) _ _ 0); [reflexivity|ring|]. apply @is_derive_const.
    + apply (der_ext (fun t => p t 1%nat) _ _ (dp 1%nat)); [reflexivity|cbn; unfold zero; ring|]. apply D. cbn; lia.
  - reflexivity.
Qed.
Lemma truss_out f X : forall e, In e (elements truss) -> output_consistent ones f e (gather (edofs e) X).
Proof.
  intros e He dx. cbn in He. destruct He as [<-|[<-|[<-|[]]]]; cbn; unfold zero; ring.
Qed.
(** the stiffness matrix, and solvers for it *)
Definition K : matrix := fun i j =>
  match i, j with
  | 0%nat, 0%nat => 1
  | 1%nat, 1%nat => 9 / 4 | 1%nat, 2%nat => - (3 / 4)
  | 2%nat, 1%nat => - (3 / 4) | 2%nat, 2%nat => 5 / 4
  | 3%nat, 1%nat => - (1 / 2) | 3%nat, 2%nat => - (1 / 2) | 3%nat, 3%nat => 1
  | _, _ => 0
  end.
Lemma truss_jac X i j : (i < 4)%nat -> (j < 4)%nat -> jacobian truss ones X i j = K i j.
Proof. intros Hi Hj. four i; four j; cbv -[Rplus Rmult Rminus Ropp Rinv Rdiv IZR]; field. Qed.
Definition Ksolve (_ : matrix) (b : vec) : vec := fun d =>
  let y1 := (5 / 4 * b 1%nat + 3 / 4 * b 2%nat) * (4 / 9) in
  let y2 := (3 / 4 * b 1%nat + 9 / 4 * b 2%nat) * (4 / 9) in
  match d with O => b O | 1%nat => y1 | 2%nat => y2 | _ => b 3%nat + (y1 + y2) / 2 end.
Definition Ktsolve (_ : matrix) (b : vec) : vec := fun d =>
  let c1 := b 1%nat + b 3%nat / 2 in
  let c2 := b 2%nat + b 3%nat / 2 in
  match d with O => b O | 1%nat => (5 / 4 * c1 + 3 / 4 * c2) * (4 / 9)
  | 2%nat => (3 / 4 * c1 + 9 / 4 * c2) * (4 / 9) | _ => b 3%nat end.
Lemma K_solves X b : solves (n truss) (jacobian truss ones X) b (Ksolve (jacobian truss ones X) b).
Proof.
  intros i Hi. change (n truss) with 4%nat in *.
  rewrite (sum_ext 4 _ (fun j => K i j * Ksolve (jacobian truss ones X) b j))
    by (intros; now rewrite truss_jac).
  four i; cbn; field.
Qed.
Lemma K_solves_tr X b : solves_tr (n truss) (jacobian truss ones X) b (Ktsolve (jacobian truss ones X) b).
Proof.
  intros j Hj. change (n truss) with 4%nat in *.
  rewrite (sum_ext 4 _ (fun i => K i j * Ktsolve (jacobian truss ones X) b i))
    by (intros; now rewrite truss_jac).
  four j; cbn; field.
Qed.
Lemma K_nonsingular X y : solves (n truss) (jacobian truss ones X) zero y -> forall i, (i < n truss)%nat -> y i = 0.
Proof.
  intros H i Hi. change (n truss) with 4%nat in *.
  assert (E : forall i, (i < 4)%nat -> sum 4 (fun j => K i j * y j) = 0).
  { intros k Hk. change 0 with (zero k). rewrite <- (H k Hk). apply sum_ext. intros. now rewrite truss_jac. }
  pose proof (E 0%nat ltac:(lia)). pose proof (E 1%nat ltac:(lia)). pose proof (E 2%nat ltac:(lia)).
  pose proof (E 3%nat ltac:(lia)). cbn in *. four i; lra.
Qed.

(** C108: the residual at rest is minus the load on dof 2, counted once by the two processors *)
Example C108_truss : exists g, residual truss ones zero = Ok g /\ g 0%nat = 0 /\ g 1%nat = 0 /\ g 2%nat = -1 /\ g 3%nat = 0.
Proof.
  eexists; split; [reflexivity|]. repeat split; cbv -[Rplus Rmult Rminus Ropp Rinv Rdiv IZR]; ring.
Qed.
(** the same mesh on one processor *)
Definition serial : sys := mkSys 4 1 [mkRank [e2; ground; e1] 0 4] [tip] (fun _ => false) (row truss)
  (fun _ => false) None.
Example C108_serial : redistributed truss serial /\ owned_once serial.
Proof.
  split.
  - repeat split. change (Permutation [e1; ground; e2] [e2; ground; e1]).
    change (Permutation [e1; ground; e2] (rev [e1; ground; e2])). apply Permutation_rev.
  - intros d Hd. four d; reflexivity.
Qed.
(** C109, C110: both sensitivities of the tip displacement are its derivative, -1/9 *)
Example C110_truss : exists lam st2 dX st1,
  adjoint_solve truss ones Ktsolve (mkState (path 1) mzero) (path 1) true = (lam, st2) /\
  sensitivity_solve truss ones Ksolve (mkState (path 1) mzero) (path 1) O true = Ok (dX, st1) /\
  calculate_output_adjoint_sensitivity truss ones (path 1) lam O true = Ok (- (1 / 9)) /\
  calculate_output_direct_sensitivity truss ones O (path 1) (Some dX) = - (1 / 9) /\
  is_derive (fun t => output_of truss (at_ ones O t) (path t)) 1 (- (1 / 9)).
Proof.
  destruct (adjoint_solve truss ones Ktsolve (mkState (path 1) mzero) (path 1) true) as [lam st2] eqn:HA.
  destruct (C108_residual_sensitivity truss ones O (path 1) truss_owned truss_formed (truss_sound _ _ _)) as (g & E & _).
  destruct (sensitivity_solve truss ones Ksolve (mkState (path 1) mzero) (path 1) O true) as [[dX st1]|] eqn:HS.
  2:{ unfold sensitivity_solve in HS. rewrite E in HS. discriminate. }
  exists lam, st2, dX, st1. split; [reflexivity|]. split; [reflexivity|].
  destruct (C110_adjoint_is_total_derivative truss ones Ktsolve (mkState (path 1) mzero) (path 1) O zero path dpath
     lam st2 truss_owned truss_formed (truss_sound _ _ _) path_ok eq_refl (K_solves_tr (path 1)) HA) as (D & E1 & D1).
  destruct (C110_direct_is_total_derivative truss ones Ksolve (mkState (path 1) mzero) (path 1) O zero path dpath
     dX st1 truss_owned truss_formed (truss_sound _ _ _) (fun d H => ltac:(discriminate)) (truss_out O _) path_ok
     (K_solves (path 1)) (K_nonsingular (path 1)) HS) as (_ & D2).
  assert (Q : is_derive (fun t => output_of truss (at_ ones O t) (path t)) (ones O) (- (1 / 9))).
  { apply (der_ext (fun t => (t + 5 / 4) / (5 / 4 * t + 1)) _ _ (- (1 / 9))); [|reflexivity|].
    - intros t. cbv -[Rplus Rmult Rminus Ropp Rinv Rdiv IZR]. ring.
    - unfold ones. auto_derive; [lra|field]. }
  rewrite E1, (der_unique _ _ _ _ D1 Q). split; [reflexivity|]. split; [exact (der_unique _ _ _ _ D2 Q)|exact Q].
Qed.
Example C109_truss : exists lam st2 dX st1,
  adjoint_solve truss ones Ktsolve (mkState (path 1) mzero) (path 1) true = (lam, st2) /\
  sensitivity_solve truss ones Ksolve (mkState (path 1) mzero) (path 1) 1%nat true = Ok (dX, st1) /\
  sysmat st1 = sysmat st2 /\
  calculate_output_adjoint_sensitivity truss ones (path 1) lam 1%nat true
  = Ok (calculate_output_direct_sensitivity truss ones 1%nat (path 1) (Some dX)).
Proof.
  eexists _, _, _, _. split; [reflexivity|]. split; [reflexivity|]. split; [reflexivity|].
  eapply (C109_direct_equals_adjoint truss ones Ksolve Ktsolve (mkState (path 1) mzero) (mkState (path 1) mzero) (path 1) 1%nat true true);
    [exact truss_owned|exact truss_formed|exact (truss_sound _ _ _)|intros d H; discriminate|exact (truss_out _ _)
    |reflexivity|reflexivity|reflexivity|exact (K_solves _)|exact (K_solves_tr _)].
Qed.
(** C114: an admissible direction of the truss *)
Example C114_truss : admissible truss dpath /\
  (forall e, In e (elements truss) -> active truss e = true -> jacobian_consistent ones e (gather (edofs e) zero)).
Proof.
  split.
  - intros i r Hi Hr. four i; try discriminate; injection Hr as <-; cbv -[Rplus Rmult Rminus Ropp Rinv Rdiv IZR]; field.
  - intros e He _ p dp P D k Hk. cbn in He. destruct He as [<-|[<-|[<-|[]]]]; cbn [edofs e1 e2 ground spring length] in *.
    + pose proof (d_lin2 _ _ _ _ 1 0 (D O ltac:(lia)) (D 1%nat ltac:(lia))) as M.
      destruct k as [|[|k]]; [| |lia].
      * eapply der_ext; [| |exact M]; intros; cbn; unfold ones; ring.
      * apply (der_scal (-1)) in M. eapply der_ext; [| |exact M]; intros; cbn; unfold ones; ring.
    + assert (k = O) by lia. subst. apply (der_ext (fun t => p t O) _ _ (dp O)); [reflexivity|unfold dres_of; cbn; ring|]. apply D. lia.
    + pose proof (d_lin2 _ _ _ _ 1 0 (D O ltac:(lia)) (D 1%nat ltac:(lia))) as M.
      destruct k as [|[|k]]; [| |lia].
      * eapply der_ext; [| |exact M]; intros; cbn; ring.
      * apply (der_scal (-1)) in M. eapply der_ext; [| |exact M]; intros; cbn; ring.
Qed.
(** C112: an object that excludes the ground spring is sound for the stiffness parameter *)
Definition guarded : sys := mkSys 4 1 (ranks truss) [tip] (fun _ => false) (row truss) (fun _ => false)
  (Some (mkDep (fun e _ => (length (edofs e) =? 2)%nat) false)).
Example C112_guarded : dependence_sound guarded ones O (path 1) /\ no_override guarded /\
  exists g, sensitivity_assemble guarded ones O (path 1) = Ok g /\ g 1%nat = 1 / 3.
Proof.
  split; [|split].
  - intros d Hd e He Hn. cbn in Hd. injection Hd as <-. cbn in He.
    destruct He as [<-|[<-|[<-|[]]]]; cbn in Hn; try discriminate. split; [|reflexivity].
    intros. unfold dres_of; cbn. ring.
  - intros d Hd. cbn in Hd. injection Hd as <-. reflexivity.
  - eexists; split; [reflexivity|]. cbv -[Rplus Rmult Rminus Ropp Rinv Rdiv IZR]. field.
Qed.
(** C113: two parameters *)
Example C113_truss : exists a b, adjoint_multiple truss ones (path 1) (fun _ => 1) [0; 1]%nat = Ok [a; b] /\ a = 1 / 3 /\ b = -1.
Proof.
  eexists _, _; split; [reflexivity|]. split; cbv -[Rplus Rmult Rminus Ropp Rinv Rdiv IZR]; field.
Qed.

Print Assumptions C108_residual.
Print Assumptions C108_residual_sensitivity.
Print Assumptions C108_output.
Print Assumptions C108_output_derivative.
Print Assumptions C108_redistributed.
Print Assumptions C108_load_size.
Print Assumptions C109_direct_equals_adjoint.
Print Assumptions C110_adjoint_is_total_derivative.
Print Assumptions C110_direct_is_total_derivative.
Print Assumptions C111_adjoint_at_solution_partial.
Print Assumptions C111_direct_at_X.
Print Assumptions C111_adjoint_elsewhere_refuted.
Print Assumptions C112_dependence.
Print Assumptions C112_override_refuted.
Print Assumptions C113_multiple_parameters.
Print Assumptions C113_parts.
Print Assumptions C114_jacobian.
Print Assumptions C114_constrained_rows.
Print Assumptions C114_blanked_refuted.
