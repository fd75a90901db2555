(** C224-C225: pressure functions and integrated pressure. *)
From Coq Require Import List Arith Bool Reals Lra Lia.
From Verif Require Import Base RBool Flui_Model Flui_Spec Flui_Props Prs_Model Prs_Spec Prs_Proofs.
Import ListNotations.
Open Scope R_scope.

(** ** C224 *)
Section Fluid.
Variables (d : nat) (visc : bool) (fl : flight).
Hypothesis (D : valid_dim d).
Notation cp := (g_cp (fl_gas fl)).
Notation cv := (g_cv (fl_gas fl)).
Hypothesis (G : 0 < cv < cp).
Definition shown (if_cp : bool) (ref : R) (U : vec) : R :=
  if if_cp then (gas_pressure d cp cv U - free_pressure fl) / fl_q0 fl else gas_pressure d cp cv U - ref.
Theorem C224_value_partial : forall l f s x, psteps pf0 l = Ok f -> last_sol l = Some s ->
  0 < s x 0%nat -> 0 < gas_pressure d cp cv (s x) -> (last_cp l = true -> fl_q0 fl <> 0) ->
  pressure d visc fl f x = Ok (shown (last_cp l) (last_ref l) (s x)).
Proof.
  intros l f s x E S A B Q. destruct (settings l f E) as (H1 & H2 & H3 & _). unfold pressure, shown. rewrite H3, S, H1, H2.
  rewrite physical by auto. cbn [bind]. rewrite prim_pressure by lra. destruct (last_cp l); auto. unfold over_q0.
  destruct (reqb (fl_q0 fl) 0) eqn:Z; auto. apply reqb_true in Z. exfalso. exact (Q eq_refl Z).
Qed.
Theorem C224_perturbation_partial : forall l f s ds x U t0, psteps pf0 l = Ok f -> last_sol l = Some s -> last_dsol l = Some ds ->
  0 < s x 0%nat -> 0 < gas_pressure d cp cv (s x) -> (last_cp l = true -> fl_q0 fl <> 0) ->
  U t0 = s x -> follows U t0 (ds x) ->
  exists v, perturbation d visc fl f x = Ok v /\ derivable_pt_lim (fun t => shown (last_cp l) (last_ref l) (U t)) t0 v.
Proof.
  intros l f s ds x U t0 E S Ds A B Q Ut F. destruct (settings l f E) as (H1 & H2 & H3 & H4). unfold perturbation, shown. rewrite H3, S, H4, Ds, H1.
  rewrite physical by auto. cbn [bind]. rewrite <- Ut in *. pose proof (dp_deriv d cp cv visc U t0 (ds x) D G F A B) as P.
  set (dp := d_p _) in *. destruct (last_cp l).
  - unfold over_q0. destruct (reqb (fl_q0 fl) 0) eqn:Z; [apply reqb_true in Z; exfalso; exact (Q eq_refl Z)|]. eexists. split; [reflexivity|].
    assert (K : derivable_pt_lim (fun t => (gas_pressure d cp cv (U t) - free_pressure fl) * / fl_q0 fl) t0 (dp / fl_q0 fl)); [|exact K].
    replace (dp / fl_q0 fl) with ((dp - 0) * / fl_q0 fl + (gas_pressure d cp cv (U t0) - free_pressure fl) * 0) by (unfold Rdiv; ring).
    apply (derivable_pt_lim_mult (fun t => gas_pressure d cp cv (U t) - free_pressure fl) (fun _ => / fl_q0 fl)); [|apply derivable_pt_lim_const].
    apply (derivable_pt_lim_minus (fun t => gas_pressure d cp cv (U t)) (fun _ => free_pressure fl)); [exact P|apply derivable_pt_lim_const].
  - eexists. split; [reflexivity|]. replace dp with (dp - 0) by ring.
    apply (derivable_pt_lim_minus (fun t => gas_pressure d cp cv (U t)) (fun _ => last_ref l)); [exact P|apply derivable_pt_lim_const].
Qed.
(** the complex disturbance: real and imaginary part *)
Theorem C224_complex_partial : forall c s re im x U W t0, 0 < s x 0%nat -> 0 < gas_pressure d cp cv (s x) -> (c = true -> fl_q0 fl <> 0) ->
  U t0 = s x -> follows U t0 (re x) -> W t0 = s x -> follows W t0 (im x) ->
  exists a b, complex_perturbation d visc fl c s re im x = Ok (a, b) /\
    derivable_pt_lim (fun t => shown c 0 (U t)) t0 a /\ derivable_pt_lim (fun t => shown c 0 (W t)) t0 b.
Proof.
  intros c s re im x U W t0 A B Q Ut F Wt H.
  destruct (C224_perturbation_partial [PInit s (Some re); SetCp c] (mkPf c 0 (Some s) (Some re)) s re x U t0 eq_refl eq_refl eq_refl A B Q Ut F) as (a & Ea & Da).
  destruct (C224_perturbation_partial [PInit s (Some im); SetCp c] (mkPf c 0 (Some s) (Some im)) s im x W t0 eq_refl eq_refl eq_refl A B Q Wt H) as (b & Eb & Db).
  exists a, b. split; [|split; auto]. unfold perturbation in Ea, Eb. cbn [pf_sol pf_dsol pf_cp] in Ea, Eb. unfold complex_perturbation.
  rewrite physical in Ea, Eb |- * by auto. cbn [bind] in *. destruct c; [rewrite Ea; cbn [bind]; rewrite Eb; reflexivity|]. inversion Ea; inversion Eb; subst. reflexivity.
Qed.
Theorem C224_unset : forall l f x, psteps pf0 l = Ok f ->
  (last_sol l = None -> pressure d visc fl f x = Fault AssertFailed /\ perturbation d visc fl f x = Fault AssertFailed) /\
  (last_dsol l = None -> perturbation d visc fl f x = Fault AssertFailed).
Proof.
  intros l f x E. destruct (settings l f E) as (_ & _ & H3 & H4). unfold pressure, perturbation. rewrite H3, H4. split; intros ->; auto.
  now destruct (last_sol l).
Qed.
(** the coefficient of a fluid at rest *)
Theorem C224_still_refuted : forall l f s x, psteps pf0 l = Ok f -> last_sol l = Some s -> 0 < s x 0%nat -> 0 < gas_pressure d cp cv (s x) ->
  last_cp l = true -> fl_mach fl = 0 -> pressure d visc fl f x = Fault DivByZero.
Proof.
  intros l f s x E S A B C M. destruct (settings l f E) as (H1 & _ & H3 & _). unfold pressure. rewrite H3, S, H1, C. rewrite physical by auto. cbn [bind].
  unfold over_q0. assert (Z : fl_q0 fl = 0) by (unfold fl_q0, fl_vel; rewrite M; ring). rewrite Z. assert (X : reqb 0 0 = true) by now apply reqb_true. now rewrite X.
Qed.
End Fluid.
(** a reference is refused while the coefficient is asked for, and one set before is back afterwards *)
Theorem C224_reference : forall l f r, psteps pf0 l = Ok f ->
  psteps pf0 (l ++ [UseReference r]) = (if last_cp l then Fault AssertFailed else Ok (mkPf false r (last_sol l) (last_dsol l))).
Proof.
  intros l f r E. destruct (settings l f E) as (H1 & _ & H3 & H4). rewrite psteps_app, E. cbn. rewrite H1, H3, H4. now destruct (last_cp l).
Qed.
Definition air : flight := mkFlight (mkGas 1 1 2 1) 1 (1, 0, 0).
Example C224_example : exists l f s, psteps pf0 l = Ok f /\ last_sol l = Some s /\ last_cp l = true /\ last_ref l = 3 /\
  0 < s (fun _ => 0) 0%nat /\ 0 < gas_pressure 2 2 1 (s (fun _ => 0)) /\ 0 < g_cv (fl_gas air) < g_cp (fl_gas air) /\ fl_q0 air <> 0.
Proof.
  set (s := fun (_ : where_) (i : nat) => match i with 0%nat => 1 | 3%nat => 2 | _ => 0 end).
  exists [UseReference 3; PInit s None; SetCp true], (mkPf true 3 (Some s) None), s. repeat split; try (cbn; lra).
  - unfold gas_pressure. cbn. lra.
  - unfold fl_q0, fl_vel, g_a, g_gamma, g_R. cbn. replace (2 / 1 * (2 - 1) * 1) with 2 by field.
    replace (1 / 2 * 1 * (1 * sqrt 2 * (1 * sqrt 2))) with (1 / 2 * (sqrt 2 * sqrt 2)) by ring. rewrite sqrt_sqrt; lra.
Qed.

(** ** C225 *)
Theorem C225_value : forall o n w l w' v, pout_new o n = Ok w -> osteps w l = Ok w' -> last_load l = Some v ->
  ovalue w' = Ok (output_of (last_mode o l) (last_dir n l) v).
Proof.
  intros o n w l w' v E H L. destruct (osteps_tidy o n w E l w' H) as (A & B & C & _ & _). unfold ovalue, output_of. rewrite A, C, L.
  destruct (last_mode o l); [now rewrite len_size|]. destruct (B eq_refl) as (Z & ->). now rewrite dot_unit.
Qed.
Theorem C225_sensitivity_partial : forall o n w l w' v f dv L t0, pout_new o n = Ok w -> osteps w l = Ok w' -> last_load l = Some v ->
  last_sens f l = Some dv -> L t0 = v -> moves L t0 dv -> (last_mode o l = L2Norm -> v <> (0, 0, 0)) ->
  exists s, osensitivity w' f = Ok s /\ derivable_pt_lim (fun t => output_of (last_mode o l) (last_dir n l) (L t)) t0 s.
Proof.
  intros o n w l w' v f dv L t0 E H Lv Sv Lt M Z. destruct (osteps_tidy o n w E l w' H) as (A & B & C & D & _). unfold osensitivity.
  specialize (D f). rewrite Sv in D. destruct (find _ (po_sens w')) as [(g, u)|]; [|discriminate]. cbn in D. inversion D; subst u. rewrite A, C, Lv.
  unfold output_of. destruct (last_mode o l).
  - rewrite len_size. destruct (reqb (size3 v) 0) eqn:Q; [apply reqb_true, size_zero in Q; exfalso; exact (Z eq_refl Q)|]. eexists. split; [reflexivity|].
    apply d_size; auto. intros X. apply size_zero in X. exact (Z eq_refl X).
  - destruct (B eq_refl) as (Zn & ->). eexists. split; [reflexivity|]. rewrite dot_unit by auto. now apply d_along.
Qed.
Theorem C225_derivative_partial : forall o n w l w' v j L t0, pout_new o n = Ok w -> osteps w l = Ok w' -> last_load l = Some v ->
  L t0 = v -> moves L t0 (last_deriv l j) -> (last_mode o l = L2Norm -> v <> (0, 0, 0)) ->
  exists s, oderivative w' j = Ok s /\ derivable_pt_lim (fun t => output_of (last_mode o l) (last_dir n l) (L t)) t0 s.
Proof.
  intros o n w l w' v j L t0 E H Lv Lt M Z. destruct (osteps_tidy o n w E l w' H) as (A & B & C & _ & F). unfold oderivative. rewrite A, C, Lv, F.
  unfold output_of. destruct (last_mode o l).
  - rewrite len_size. destruct (reqb (size3 v) 0) eqn:Q; [apply reqb_true, size_zero in Q; exfalso; exact (Z eq_refl Q)|]. eexists. split; [reflexivity|].
    apply d_size; auto. intros X. apply size_zero in X. exact (Z eq_refl X).
  - destruct (B eq_refl) as (Zn & ->). eexists. split; [reflexivity|].
    replace (dot3 (unit_of (last_dir n l)) (last_deriv l j)) with (along (last_dir n l) (last_deriv l j)); [now apply d_along|].
    rewrite <- dot_unit by auto. destruct (unit_of (last_dir n l)) as ((p & q) & r), (last_deriv l j) as ((a & b) & c). cbn. ring.
Qed.
(** no load, or one that was cleared: the norm has no sensitivity *)
Theorem C225_zero_refuted : forall o n w l w' f dv, pout_new o n = Ok w -> osteps w l = Ok w' -> last_load l = Some (0, 0, 0) ->
  last_mode o l = L2Norm -> last_sens f l = Some dv -> osensitivity w' f = Fault DivByZero.
Proof.
  intros o n w l w' f dv E H Lv Mo Sv. destruct (osteps_tidy o n w E l w' H) as (A & _ & C & D & _). unfold osensitivity. specialize (D f). rewrite Sv in D.
  destruct (find _ (po_sens w')) as [(g, u)|]; [|discriminate]. rewrite A, C, Lv, Mo, len_size.
  assert (X : reqb (size3 (0, 0, 0)) 0 = true) by (apply reqb_true; now apply size_zero). now rewrite X.
Qed.
(** the default direction *)
Theorem C225_direction_refuted : pout_new UnitVec (0, 0, 0) = Fault DivByZero.
Proof. unfold pout_new, div3. rewrite len_size. assert (X : reqb (size3 (0, 0, 0)) 0 = true) by (apply reqb_true; now apply size_zero). now rewrite X. Qed.
(** a new load keeps the sensitivities of the old one, and they cannot be replaced before clear *)
Theorem C225_stale_refuted : forall o n w f v v' dv dv' w', pout_new o n = Ok w ->
  osteps w [SetLoad v; SetSens f dv; SetLoad v'] = Ok w' -> last_mode o [] = UnitVec ->
  osensitivity w' f = Ok (along n dv) /\ ostep w' (SetSens f dv') = Fault AssertFailed.
Proof.
  intros o n w f v v' dv dv' w' E H Mo. pose proof (osteps_tidy o n w E _ w' H) as (A & B & _ & D & _).
  cbn [last_mode fold_left] in *. unfold last_mode in *. cbn [fold_left] in *. subst o. destruct (B eq_refl) as (Z & Pn). cbn in Pn, Z.
  specialize (D f). unfold last_sens in D. cbn [fold_left] in D. rewrite Nat.eqb_refl in D.
  unfold osensitivity, ostep. destruct (find (fun q => (fst q =? f)%nat) (po_sens w')) as [(g, u)|] eqn:Fd; [|discriminate]. cbn in D. inversion D; subst u.
  rewrite A, Pn. split; [now rewrite dot_unit|]. apply find_some in Fd.
  assert (X : existsb (fun q => (fst q =? f)%nat) (po_sens w') = true) by (apply existsb_exists; eexists; apply Fd). now rewrite X.
Qed.
Theorem C225_mode : forall w, ostep w (SetMode UnitVec None) = Fault AssertFailed.
Proof. reflexivity. Qed.
Example C225_example : exists w w', pout_new L2Norm (0, 0, 0) = Ok w /\
  osteps w [SetLoad (3, 0, 4); SetSens 0 (1, 0, 0); SetMode UnitVec (Some (0, 0, 2)); SetMode L2Norm None] = Ok w' /\
  ovalue w' = Ok (size3 (3, 0, 4)) /\ (3, 0, 4) <> (0, 0, 0).
Proof.
  assert (Q : div3 (0, 0, 2) (len3 (0, 0, 2)) = Ok (0 / len3 (0, 0, 2), 0 / len3 (0, 0, 2), 2 / len3 (0, 0, 2))).
  { unfold div3. destruct (reqb (len3 (0, 0, 2)) 0) eqn:Z; auto. apply reqb_true in Z. rewrite len_size in Z. apply size_zero in Z. inversion Z. lra. }
  eexists _, _. split; [reflexivity|]. split; [cbn -[div3 len3]; rewrite Q; reflexivity|]. split.
  - cbn -[len3]. now rewrite len_size.
  - intros X. inversion X. lra.
Qed.
Print Assumptions C224_value_partial.
Print Assumptions C224_perturbation_partial.
Print Assumptions C224_complex_partial.
Print Assumptions C224_unset.
Print Assumptions C224_still_refuted.
Print Assumptions C224_reference.
Print Assumptions C225_value.
Print Assumptions C225_sensitivity_partial.
Print Assumptions C225_derivative_partial.
Print Assumptions C225_zero_refuted.
Print Assumptions C225_direction_refuted.
Print Assumptions C225_stale_refuted.
Print Assumptions C225_mode.
