(** Proofs about the sides of the flow element. *)
From Coq Require Import Reals.
From Coquelicot Require Import Coquelicot.
From Coq Require Import List Arith Bool Lra Lia.
From Verif Require Import Base BaseLemmas RBool Stre_Proofs Stre_Proofs2 Flui_Model Flui_Spec Flui_Proofs Flui_Proofs2 Flui_Proofs3 Flui_Proofs5 Flui_Proofs6 Flui_Props Heat_Proofs Sens_Proofs2 Cfe_Model Cfe_Spec Cfe_Proofs Cfe_Proofs2 Cfe_Proofs3.
Import ListNotations.
Open Scope R_scope.

Section Sides.
Variables (d : nat) (cp cv : R) (nphi : nat).
Hypothesis D : valid_dim d.
Hypothesis G : 0 < cv < cp.
Let st := state_at d cp cv nphi.
Let n1 := nun d.

(** What a condition adds at a point. *)
Definition pt_flux (x : evec) (c : fside) (q : fpt) : vec :=
  match c with
  | SymmetryWall => sym_flux d (st x q) (fq_n q)
  | SlipWall b => slip_flux d b q (fe_U nphi q x) (st x q)
  | FarField inf => far_flux d cp cv (fe_U nphi q x) (inf q) (st x q) (fq_n q)
  | _ => fun _ => 0
  end.
Definition pt_jac (x : evec) (c : fside) (q : fpt) : mx :=
  match c with
  | SymmetryWall => wallJ d cp cv (st x q) 0 (fq_n q) (fun _ => 0)
  | SlipWall b => wallJ d cp cv (st x q) (slip_speed d b q (st x q)) (fq_n q) (at_pt (sl_rot b) q)
  | FarField _ => split_mat d outgoing (Efn d cp cv (st x q) (fq_n q))
  | _ => mx0
  end.
(** The conditions under which a side runs. *)
Definition side_ok (x : evec) (sc : list fpt * fside) : Prop :=
  match snd sc with
  | SymmetryWall | FarField _ => forall q, In q (fst sc) -> good d cp cv nphi x q
  | SlipWall b => ~ (sl_vel b <> None /\ sl_rot b = None) /\ forall q, In q (fst sc) -> good d cp cv nphi x q
  | DirichletSide => True
  | OtherSide => False
  end.
Definition far_unit (sc : list fpt * fside) : Prop := match snd sc with FarField _ => forall q, In q (fst sc) -> unit_normal d (fq_n q) | _ => True end.
Definition side_f (x : evec) (sc : list fpt * fside) : evec := fun v a => tot (fun q => adds (fq_w q) (fq_N q) (pt_flux x (snd sc) q) v a) (fst sc).
Definition side_j (x : evec) (sc : list fpt * fside) : emat := fun v a v' a' => tot (fun q => addm (fq_w q) (fq_N q) (pt_jac x (snd sc) q) v a v' a') (fst sc).

Lemma side_step_ok x sc acc : side_ok x sc /\ far_unit sc -> exists f j, side_step d cp cv nphi x sc acc = Ok (f, j) /\
  (forall v a, f v a = fst acc v a + side_f x sc v a) /\ (forall v a v' a', j v a v' a' = snd acc v a v' a' + side_j x sc v a v' a').
Proof.
  destruct sc as [qs [|b|inf| |]]; intros [H K]; unfold side_step, side_ok, far_unit, side_f, side_j in *; cbn [fst snd pt_flux pt_jac] in *.
  - apply (over_run _ (fun q => adds (fq_w q) (fq_N q) (sym_flux d (st x q) (fq_n q))) (fun q => addm (fq_w q) (fq_N q) (wallJ d cp cv (st x q) 0 (fq_n q) (fun _ => 0))) (good d cp cv nphi x)); auto.
    intros; apply sym_step_ok; auto.
  - destruct H as [N H]. assert (EQ : slip_side d cp cv nphi b x qs acc = over (slip_step d cp cv nphi b x) qs acc).
    { unfold slip_side. destruct (sl_vel b) eqn:EV; destruct (sl_rot b) eqn:ER; auto. exfalso. apply N. split; congruence. }
    rewrite EQ. apply (over_run _ (fun q => adds (fq_w q) (fq_N q) (slip_flux d b q (fe_U nphi q x) (st x q))) (fun q => addm (fq_w q) (fq_N q) (wallJ d cp cv (st x q) (slip_speed d b q (st x q)) (fq_n q) (at_pt (sl_rot b) q))) (good d cp cv nphi x)); auto.
    intros; apply slip_step_ok; auto.
  - destruct (over_run (far_step d cp cv nphi inf x) (fun q => adds (fq_w q) (fq_N q) (far_flux d cp cv (fe_U nphi q x) (inf q) (st x q) (fq_n q))) (fun q => addm (fq_w q) (fq_N q) (split_mat d outgoing (Efn d cp cv (st x q) (fq_n q)))) (fun q => good d cp cv nphi x q /\ unit_at d q)) with (l := qs) (acc := acc) as (f & j & E & Q); eauto.
    + intros q a [A B]. apply far_step_ok; auto.
    + intros q I. split; [apply H|apply K]; auto.
  - destruct acc as [f j]. exists f, j. split; auto. cbn [fst snd]. split; intros; rewrite tot_0; try ring; intros; unfold adds, addm, mx0; ring.
  - contradiction.
Qed.
Lemma side_step_inv x sc acc r : side_step d cp cv nphi x sc acc = Ok r -> side_ok x sc.
Proof.
  destruct sc as [qs [|b|inf| |]]; unfold side_step, side_ok; cbn [fst snd]; intros H; auto.
  - apply (over_need (sym_step d cp cv nphi x) (good d cp cv nphi x)) with (acc := acc) (r := r) (l := qs); auto. intros; eapply sym_step_inv; eauto.
  - unfold slip_side in H. assert (N : ~ (sl_vel b <> None /\ sl_rot b = None)).
    { intros [N1 N2]. rewrite N2 in H. destruct (sl_vel b); [discriminate|congruence]. }
    split; auto. apply (over_need (slip_step d cp cv nphi b x) (good d cp cv nphi x)) with (acc := acc) (r := r) (l := qs).
    + intros; eapply slip_step_inv; eauto.
    + destruct (sl_vel b); destruct (sl_rot b); auto; discriminate.
  - apply (over_need (far_step d cp cv nphi inf x) (good d cp cv nphi x)) with (acc := acc) (r := r) (l := qs); auto. intros; eapply far_step_inv; eauto.
  - discriminate.
Qed.
Lemma sides_sum sides x acc f j : side_external_residual d cp cv nphi sides x acc = Ok (f, j) -> (forall sc, In sc sides -> far_unit sc) ->
  (forall sc, In sc sides -> side_ok x sc) /\
  (forall v a, f v a = fst acc v a + tot (fun sc => side_f x sc v a) sides) /\ (forall v a v' a', j v a v' a' = snd acc v a v' a' + tot (fun sc => side_j x sc v a v' a') sides).
Proof.
  intros H K. assert (N := over_need (side_step d cp cv nphi x) (side_ok x) (fun y a r => side_step_inv x y a r) sides acc _ H). split; auto.
  destruct (over_run (side_step d cp cv nphi x) (side_f x) (side_j x) (fun sc => side_ok x sc /\ far_unit sc)) with (l := sides) (acc := acc) as (f' & j' & E & Q).
  - intros sc a Q. apply side_step_ok; auto.
  - intros sc I. split; auto.
  - unfold side_external_residual in H. rewrite H in E. injection E as <- <-. exact Q.
Qed.
Lemma sides_run sides x acc : (forall sc, In sc sides -> side_ok x sc /\ far_unit sc) -> exists f j, side_external_residual d cp cv nphi sides x acc = Ok (f, j).
Proof.
  intros H. destruct (over_run (side_step d cp cv nphi x) (side_f x) (side_j x) (fun sc => side_ok x sc /\ far_unit sc)) with (l := sides) (acc := acc) as (f' & j' & E & Q); auto.
  - intros sc a Q. apply side_step_ok; auto.
  - exists f', j'. exact E.
Qed.

(** The conservative variables of the state at a point. *)
Lemma cons_at x q : p_rho (st x q) <> 0 -> forall v, (v < 2 + d)%nat ->
  fe_U nphi q x v = if Nat.eqb v 0 then p_rho (st x q) else if Nat.eqb v (d + 1) then p_rho (st x q) * p_e (st x q) else p_rho (st x q) * vel (st x q) (v - 1).
Proof.
  intros R. unfold st, state_at in *. cbn [prim_of p_rho] in R. revert R. generalize (fe_U nphi q x). intros U R.
  dims D; cbn [Nat.add]; below; cbn; field; auto.
Qed.
Definition wall_speed (b : slip) (q : fpt) : R := dot3 (at_pt (sl_vel b) q) (fun i => pad d (fq_n q) i + at_pt (sl_rot b) q i).
Lemma slip_is_wall b x q : p_rho (st x q) <> 0 -> forall v, (v < 2 + d)%nat ->
  slip_flux d b q (fe_U nphi q x) (st x q) v = wall_flux d (wall_speed b q) (fq_n q) (at_pt (sl_rot b) q) (st x q) v.
Proof.
  intros R v Hv. unfold slip_flux. rewrite cons_at by auto.
  assert (SS : slip_speed d b q (st x q) = wall_speed b q - sum d (fun i => match i with 0%nat => p_u1 (st x q) | 1%nat => p_u2 (st x q) | _ => p_u3 (st x q) end * at_pt (sl_rot b) q i)).
  { unfold slip_speed, wall_speed. f_equal. unfold dot3. dims D; cbn; ring. }
  rewrite SS. unfold wall_flux. cbv zeta. revert v Hv.
  dims D; cbn [Nat.add]; below; cbn [Nat.eqb Nat.ltb Nat.leb Nat.sub andb pad vel Nat.add]; unfold pad; cbn [Nat.ltb Nat.leb]; ring.
Qed.
Lemma sym_is_wall x q : forall v, (v < 2 + d)%nat -> sym_flux d (st x q) (fq_n q) v = wall_flux d 0 (fq_n q) (fun _ => 0) (st x q) v.
Proof.
  unfold sym_flux, wall_flux. cbv zeta. dims D; cbn [Nat.add]; below; cbn; ring.
Qed.
Lemma slip_speed_wall b x q : slip_speed d b q (st x q) = wall_speed b q - sum d (fun i => uvec d (st x q) i * at_pt (sl_rot b) q i).
Proof. unfold slip_speed, wall_speed. f_equal. unfold dot3. dims D; cbn; ring. Qed.
(** At the flow far away the flux is the flux of the flow. *)
Lemma far_consistent x q inf : good d cp cv nphi x q -> unit_normal d (fq_n q) -> (forall v, (v < n1)%nat -> inf v = fe_U nphi q x v) ->
  forall v, (v < n1)%nat -> far_flux d cp cv (fe_U nphi q x) inf (st x q) (fq_n q) v = through d (st x q) (fq_n q) v.
Proof.
  intros K UN E v Hv. unfold far_flux.
  rewrite (mvec_ext (nun d) _ inf (fe_U nphi q x)) by auto.
  destruct (good_facts d cp cv nphi G x q K) as (R & T & _). fold st in R, T.
  transitivity (mvec n1 (along d (Afn d cp cv (st x q)) (fq_n q)) (fe_U nphi q x) v).
  - unfold mvec. fold n1. rewrite <- sum_plus. apply sum_ext. intros k Hk. rewrite <- (split_whole d cp cv nphi D G x q K UN) by auto. fold st. ring.
  - unfold through, along, mvec. rewrite (sum_ext _ _ (fun k => sum d (fun c => fq_n q c * (Afn d cp cv (st x q) c v k * fe_U nphi q x k)))).
    2:{ intros k Hk. rewrite <- sum_scal_r. apply sum_ext. intros. ring. }
    rewrite sum_swap. apply sum_ext. intros c Hc. rewrite sum_scal_l. f_equal.
    unfold n1 in *. rewrite nun_2 in *. rewrite <- flux_euler by auto.
    rewrite <- (adv_homog d c cp cv (fe_U nphi q x)) by first [assumption | apply Rgt_not_eq; exact R | lra]. reflexivity.
Qed.
End Sides.
