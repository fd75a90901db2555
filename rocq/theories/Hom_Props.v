(** C174, C175: homogenised densities.  For every mesh, distribution, level set function, width, parameter and
    history of calls. *)
From Coq Require Import Reals Lra Lia.
From Coquelicot Require Import Coquelicot.
From Coq Require Import List Arith Bool.
From Verif Require Import Base BaseLemmas RBool Sens_Model Sens_Spec Sens_Proofs2 Heat_Proofs Solid_Proofs2 Lse_Model Lse_Spec Lse_Proofs Lse_Proofs2 Lse_Props Hom_Model Hom_Spec.
Import ListNotations.
Open Scope R_scope.

Section Heaviside.
Variables (dbg : bool) (width : R) (local : list helem) (influence : nat -> helem -> bool) (topology : nat -> bool).
Notation step := (hstep dbg width local influence topology).
Notation run := (hrun dbg width local influence topology).

Lemma run_app s a b : run s (a ++ b) = (s' <- run s a ;; run s' b).
Proof. revert s. induction a as [|o a IH]; intros s; [reflexivity|]. cbn. destruct (step s o); cbn; [apply IH|reflexivity]. Qed.
Lemma find_fractions phi es : distinct es -> forall m m', fractions width phi es m = Ok m' ->
  forall e, In e es -> exists v, find_in (he_id e) m' = Some v /\ homogenized_volume_fraction (he_n e) (he_qs e) (phi e) width = Ok v.
Proof.
  unfold distinct. induction es as [|x es IH]; intros D m m' H e He; [destruct He|]. cbn in D. inversion D as [|? ? D1 D2]; subst. cbn in H.
  destruct (homogenized_volume_fraction (he_n x) (he_qs x) (phi x) width) as [v|] eqn:E; [|discriminate]. cbn [bind] in H.
  assert (O : forall es m m' k, ~ In k (map he_id es) -> fractions width phi es m = Ok m' -> find_in k m' = find_in k m).
  { clear. induction es as [|y es IH]; intros m m' k N H; cbn in H; [now injection H as <-|]. destruct (homogenized_volume_fraction _ _ _ _); [|discriminate]. cbn [bind] in H.
    cbn in N. rewrite (IH _ _ k) in H || idtac. rewrite (IH _ _ k (fun X => N (or_intror X)) H). cbn. destruct (Nat.eqb_spec k (he_id y)) as [->|]; [exfalso; apply N; now left|reflexivity]. }
  destruct He as [<-|He]; [|now apply (IH D2 _ _ H)]. exists v. split; [|exact E]. rewrite (O _ _ _ _ D1 H). cbn. now rewrite Nat.eqb_refl.
Qed.
Lemma find_sens f phi dphi es : distinct es -> forall m m', fraction_sensitivities width influence f phi dphi es m = Ok m' ->
  forall e, In e es -> exists v, find_in (he_id e) m' = Some v /\
    (if influence f e then homogenized_volume_fraction_sensitivity (he_n e) (he_qs e) (phi e) (dphi e) width else Ok 0) = Ok v.
Proof.
  unfold distinct. induction es as [|x es IH]; intros D m m' H e He; [destruct He|]. cbn in D. inversion D as [|? ? D1 D2]; subst. cbn in H.
  destruct (if influence f x then _ else _) as [v|] eqn:E; [|discriminate]. cbn [bind] in H.
  assert (O : forall es m m' k, ~ In k (map he_id es) -> fraction_sensitivities width influence f phi dphi es m = Ok m' -> find_in k m' = find_in k m).
  { clear. induction es as [|y es IH]; intros m m' k N H; cbn in H; [now injection H as <-|]. destruct (if influence f y then _ else _); [|discriminate]. cbn [bind] in H.
    cbn in N. rewrite (IH _ _ k (fun X => N (or_intror X)) H). cbn. destruct (Nat.eqb_spec k (he_id y)) as [->|]; [exfalso; apply N; now left|reflexivity]. }
  destruct He as [<-|He]; [|now apply (IH D2 _ _ H)]. exists v. split; [|exact E]. rewrite (O _ _ _ _ D1 H). cbn. now rewrite Nat.eqb_refl.
Qed.
Lemma keep_frac ops : frac_quiet ops -> forall s s', run s ops = Ok s' -> h_frac s' = h_frac s.
Proof.
  induction ops as [|o ops IH]; intros Q s s' H; cbn in H; [now injection H as <-|]. destruct (step s o) as [s1|] eqn:E; [|discriminate]. cbn [bind] in H.
  rewrite (IH (fun o' Ho => Q o' (or_intror Ho)) s1 s' H). specialize (Q o (or_introl eq_refl)). destruct o; cbn in E; try contradiction; [|now injection E as <-].
  unfold initialize_sensitivity in E. destruct (dbg && _); [discriminate|]. destruct (negb (topology f)); [discriminate|]. destruct (fraction_sensitivities _ _ _ _ _ _ _); [|discriminate]. cbn in E. now injection E as <-.
Qed.
Lemma keep_sens f ops : sens_quiet f ops -> forall s s', run s ops = Ok s' -> find_in f (h_sens s') = find_in f (h_sens s).
Proof.
  induction ops as [|o ops IH]; intros Q s s' H; cbn in H; [now injection H as <-|]. destruct (step s o) as [s1|] eqn:E; [|discriminate]. cbn [bind] in H.
  rewrite (IH (fun o' Ho => Q o' (or_intror Ho)) s1 s' H). specialize (Q o (or_introl eq_refl)). destruct o; cbn in E; try contradiction.
  - unfold initialize in E. destruct (dbg && _); [discriminate|]. destruct (fractions _ _ _ _); [|discriminate]. cbn in E. now injection E as <-.
  - unfold initialize_sensitivity in E. destruct (dbg && _); [discriminate|]. destruct (negb (topology f0)); [discriminate|]. destruct (fraction_sensitivities _ _ _ _ _ _ _); [|discriminate]. cbn in E. injection E as <-.
    cbn. destruct (Nat.eqb_spec f f0) as [->|]; [contradiction|reflexivity].
  - now injection E as <-.
Qed.
Lemma after_init h1 phi h2 s : frac_quiet h2 -> run h_start (h1 ++ HInit phi :: h2) = Ok s -> exists m, fractions width phi local m = Ok (h_frac s).
Proof.
  intros Q H. rewrite run_app in H. destruct (run h_start h1) as [s1|]; [|discriminate]. cbn in H. destruct (initialize dbg width local phi s1) as [s2|] eqn:E; [|discriminate]. cbn [bind] in H.
  rewrite (keep_frac _ Q _ _ H). unfold initialize in E. destruct (dbg && _); [discriminate|]. destruct (fractions width phi local (h_frac s1)) as [m|] eqn:F; [|discriminate]. cbn in E. injection E as <-. eauto.
Qed.

(** ** C174 *)
(** in an element of this process the density is the average of the smoothed step of the level set function of
    the last initialisation: strictly between nothing and everything, and the same at all points of the element *)
Theorem C174_value point locate h1 phi h2 s e p : distinct local -> frac_quiet h2 -> run h_start (h1 ++ HInit phi :: h2) = Ok s ->
  In e local -> locate p = Some (he_id e) -> width <> 0 -> positive (he_qs e) ->
  exists v, density dbg point locate s p = Ok v /\ average_step width e (phi e) v /\ 0 < v < 1.
Proof.
  intros D Q H He L W P. destruct (after_init _ _ _ _ Q H) as [m F]. destruct (find_fractions phi local D m _ F e He) as (v & Fv & Ev).
  exists v. split; [|].
  - unfold density. rewrite L, Fv. destruct (h_frac s); [discriminate|]. cbn. now rewrite andb_false_r.
  - destruct (C164_value (he_n e) (he_qs e) (phi e) width W P) as (v' & Ev' & A). rewrite Ev in Ev'. injection Ev' as <-.
    destruct (C164_bounds (he_n e) (he_qs e) (phi e) width W P) as (v' & Ev' & B). rewrite Ev in Ev'. injection Ev' as <-. auto.
Qed.
(** initialising does not fail *)
Theorem C174_runs phi s : h_frac s = [] -> width <> 0 -> (forall e, In e local -> positive (he_qs e)) -> exists s', initialize dbg width local phi s = Ok s'.
Proof.
  intros E W P. unfold initialize. rewrite E. cbn. rewrite andb_false_r.
  assert (X : forall es m, (forall e, In e es -> positive (he_qs e)) -> exists m', fractions width phi es m = Ok m').
  { clear - W. induction es as [|e es IH]; intros m P; cbn; [eauto|]. destruct (C164_value (he_n e) (he_qs e) (phi e) width W (P e (or_introl eq_refl))) as (v & -> & _). cbn. apply IH. auto using in_cons. }
  destruct (X local [] P) as [m' ->]. cbn. eauto.
Qed.
(** the derivative of the density in a parameter is exact in every element of this process, inside and outside of
    the influence of the parameter *)
Theorem C174_derivative point locate f (phi : R -> helem -> vec) dphi (t0 : R) h1 h2 s e p : distinct local -> sens_quiet f h2 ->
  run h_start (h1 ++ HSens f (phi t0) dphi :: h2) = Ok s -> In e local -> locate p = Some (he_id e) -> width <> 0 -> positive (he_qs e) ->
  sound_influence influence f dphi -> history (he_n e) t0 (fun t => phi t e) (dphi e) ->
  exists (F : R -> R) v, (forall t, average_step width e (phi t e) (F t)) /\ density_derivative dbg point locate s f p = Ok v /\ is_derive F t0 v.
Proof.
  intros D Q H He L W P I Hh. rewrite run_app in H. destruct (run h_start h1) as [s1|]; [|discriminate]. cbn in H.
  destruct (initialize_sensitivity dbg width local influence topology f (phi t0) dphi s1) as [s2|] eqn:E; [|discriminate]. cbn [bind] in H.
  pose proof (keep_sens f _ Q _ _ H) as K. unfold initialize_sensitivity in E. set (old := match find_in f (h_sens s1) with Some m => m | None => [] end) in *.
  destruct (dbg && negb (is_nil old)); [discriminate|]. destruct (negb (topology f)); [discriminate|].
  destruct (fraction_sensitivities width influence f (phi t0) dphi local old) as [m|] eqn:Fm; [|discriminate]. cbn in E. injection E as <-. cbn in K. rewrite Nat.eqb_refl in K.
  destruct (find_sens f (phi t0) dphi local D old m Fm e He) as (v & Fv & Ev).
  destruct (C164_sensitivity (he_n e) (he_qs e) t0 (fun t => phi t e) (dphi e) width W P Hh) as (F & v' & A & B & C).
  exists F, v. split; [|split].
  - intros t. destruct (C164_value (he_n e) (he_qs e) (phi t e) width W P) as (x & Ex & Hx). rewrite (A t) in Ex. injection Ex as <-. exact Hx.
  - unfold density_derivative, elem_sensitivity. rewrite L, K, Fv. destruct (h_sens s); [discriminate|]. cbn. now rewrite andb_false_r.
  - destruct (influence f e) eqn:Ei; [rewrite B in Ev; injection Ev as <-; exact C|]. injection Ev as <-.
    assert (Z : homogenized_volume_fraction_sensitivity (he_n e) (he_qs e) (phi t0 e) (dphi e) width = Ok 0); [|rewrite B in Z; injection Z as ->; exact C].
    destruct (C164_sensitivity (he_n e) (he_qs e) t0 (fun _ => phi t0 e) (dphi e) width W P) as (G & z & A' & B' & C').
    { intros a Ha. rewrite (I e Ei a Ha). apply der_const. }
    rewrite B'. f_equal. apply (der_unique G t0 z 0); [exact C'|].
    apply (der_fun (fun _ => G t0)); [|apply der_const]. intros t. pose proof (A' t) as X. rewrite (A' t0) in X. now injection X as ->.
Qed.
(** elements of other processes have no density here *)
Theorem C174_remote_refuted point locate h s e p : run h_start h = Ok s -> locate p = Some e -> (forall x, In x local -> he_id x <> e) ->
  forall v, density dbg point locate s p <> Ok v.
Proof.
  intros H L N v. assert (Z : find_in e (h_frac s) = None).
  { assert (G : forall ops s s', find_in e (h_frac s) = None -> run s ops = Ok s' -> find_in e (h_frac s') = None).
    { clear - N. induction ops as [|o ops IH]; intros s s' Hs H; cbn in H; [now injection H as <-|]. destruct (step s o) as [s1|] eqn:E; [|discriminate]. cbn [bind] in H.
      refine (IH s1 s' _ H). destruct o; cbn in E.
      - unfold initialize in E. destruct (dbg && _); [discriminate|]. destruct (fractions width phi local (h_frac s)) as [m|] eqn:F; [|discriminate]. cbn in E. injection E as <-. cbn.
        assert (X : forall es m m', (forall x, In x es -> he_id x <> e) -> find_in e m = None -> fractions width phi es m = Ok m' -> find_in e m' = None).
        { clear. induction es as [|y es IH]; intros m m' N Hm H; cbn in H; [now injection H as <-|]. destruct (homogenized_volume_fraction _ _ _ _); [|discriminate]. cbn [bind] in H.
          refine (IH _ _ _ _ H); [auto using in_cons|]. cbn. destruct (Nat.eqb_spec e (he_id y)) as [X|]; [|exact Hm]. exfalso. apply (N y (or_introl eq_refl)). auto. }
        eapply X; eauto.
      - unfold initialize_sensitivity in E. destruct (dbg && _); [discriminate|]. destruct (negb (topology f)); [discriminate|]. destruct (fraction_sensitivities _ _ _ _ _ _ _); [|discriminate]. cbn in E. now injection E as <-.
      - now injection E as <-.
      - now injection E as <-. }
    apply (G h h_start s); [reflexivity|exact H]. }
  unfold density. rewrite L, Z. destruct (dbg && _); discriminate.
Qed.
End Heaviside.
(** a second initialisation without a clear is refused by a checked build, and takes the new level set function
    in one without checks *)
Theorem C174_again width local influence topology phi phi' s s' : hrun true width local influence topology s [HInit phi] = Ok s' -> local <> [] ->
  hrun true width local influence topology s' [HInit phi'] = Fault AssertFailed.
Proof.
  intros H N. cbn in *. unfold initialize in *. destruct (is_nil (h_frac s)) eqn:Z; [|discriminate]. cbn in H.
  destruct (fractions width phi local (h_frac s)) as [m|] eqn:F; [|discriminate]. cbn in H. injection H as <-. cbn.
  assert (X : is_nil m = false); [|now rewrite X].
  destruct local as [|e es]; [contradiction|]. cbn in F. destruct (homogenized_volume_fraction _ _ _ _) as [v|]; [|discriminate]. cbn [bind] in F.
  assert (G : forall es m m', m <> [] -> fractions width phi es m = Ok m' -> m' <> []).
  { clear. induction es as [|y es IH]; intros m m' Hm H; cbn in H; [now injection H as <-|]. destruct (homogenized_volume_fraction _ _ _ _); [|discriminate]. cbn [bind] in H. eapply IH; [|exact H]. discriminate. }
  assert (m <> []) by (eapply G; [|exact F]; discriminate). destruct m; [contradiction|reflexivity].
Qed.
(** the derivative does not follow the density: after the fractions are taken anew, that of the old level set
    function is still returned *)
Definition he1 : helem := mkHe 0 2 [qline].
Theorem C174_stale_refuted : exists s v d, hrun true 1 [he1] (fun _ _ => true) (fun _ => true) h_start
    [HInit (fun _ => uline 1 1); HSens 7 (fun _ => uline 1 1) (fun _ => uline 1 1); HClear; HInit (fun _ => uline 0 0)] = Ok s /\
  density true unit (fun _ => Some 0%nat) s tt = Ok v /\ average_step 1 he1 (uline 0 0) v /\
  density_derivative true unit (fun _ => Some 0%nat) s 7 tt = Ok d /\
  homogenized_volume_fraction_sensitivity 2 [qline] (uline 1 1) (uline 1 1) 1 = Ok d /\
  homogenized_volume_fraction_sensitivity 2 [qline] (uline 0 0) (uline 1 1) 1 <> Ok d.
Proof.
  assert (W : (1 : R) <> 0) by lra.
  destruct (C164_value 2 [qline] (uline 1 1) 1 W qline_positive) as (a & Ea & _).
  destruct (C164_value 2 [qline] (uline 0 0) 1 W qline_positive) as (b & Eb & Hb).
  assert (S1 : exists d, homogenized_volume_fraction_sensitivity 2 [qline] (uline 1 1) (uline 1 1) 1 = Ok d /\ d = 1 / (2 * PI)).
  { eexists. split; [apply fraction_sens_eq; [exact W|exact qline_positive]|]. unfold integral, total, at_q, smooth_delta. cbn. pose proof PI_RGT_0. field. lra. }
  assert (S0 : exists d, homogenized_volume_fraction_sensitivity 2 [qline] (uline 0 0) (uline 1 1) 1 = Ok d /\ d = 1 / PI).
  { eexists. split; [apply fraction_sens_eq; [exact W|exact qline_positive]|]. unfold integral, total, at_q, smooth_delta. cbn. pose proof PI_RGT_0. field. lra. }
  destruct S1 as (d & Ed & Vd). destruct S0 as (d0 & Ed0 & Vd0).
  eexists. exists b, d. split; [|split; [|split; [exact Hb|split; [|split; [exact Ed|]]]]].
  - cbn. unfold initialize. cbn. rewrite Ea. cbn. unfold initialize_sensitivity. cbn. rewrite Ed. cbn. rewrite Eb. cbn. reflexivity.
  - reflexivity.
  - reflexivity.
  - rewrite Ed0. intros [= E]. rewrite Vd, Vd0 in E. pose proof PI_RGT_0. assert (0 < / PI) by (now apply Rinv_0_lt_compat). unfold Rdiv in E. rewrite Rinv_mult in E. lra.
Qed.
Example C174_example : exists s, hrun true 1 [he1; mkHe 1 2 [qline]] (fun _ e => (he_id e =? 0)%nat) (fun _ => true) h_start
  [HInit (fun _ => uline (-1) 3); HSens 2 (fun _ => uline (-1) 3) (fun e => if (he_id e =? 0)%nat then uline 1 0 else fun _ => 0)] = Ok s /\ distinct [he1; mkHe 1 2 [qline]].
Proof.
  assert (W : (1 : R) <> 0) by lra.
  destruct (C164_value 2 [qline] (uline (-1) 3) 1 W qline_positive) as (a & Ea & _).
  pose proof (fraction_sens_eq 2 [qline] (uline (-1) 3) (uline 1 0) 1 W qline_positive) as Ed.
  eexists. split; [cbn; unfold initialize; cbn; rewrite Ea; cbn; unfold initialize_sensitivity; cbn; rewrite Ed; cbn; reflexivity|].
  unfold distinct; cbn. constructor; [intros [X|[]]; discriminate|]. constructor; [intros []|constructor].
Qed.

(** ** C175 *)
(** whatever the mesh and the calls, the density from intersected elements has no value anywhere, and neither has
    its sensitivity *)
Theorem C175_value_refuted dbg local cut h s point locate p : cutrun dbg local cut h_start h = Ok s ->
  (forall v, density dbg point locate s p <> Ok v) /\ (forall f v, density_derivative dbg point locate s f p <> Ok v).
Proof.
  intros H. assert (E : s = h_start).
  { assert (G : forall ops s s', s = h_start -> cutrun dbg local cut s ops = Ok s' -> s' = h_start).
    { clear. induction ops as [|o ops IH]; intros s s' -> H; cbn in H; [now injection H as <-|]. destruct (cutstep dbg local cut h_start o) as [s1|] eqn:E; [|discriminate]. cbn [bind] in H.
      refine (IH s1 s' _ H). destruct o; cbn in E.
      - unfold cut_initialize in E. cbn in E. destruct (dbg && _); [discriminate|]. now injection E as <-.
      - unfold cut_initialize_sensitivity in E. cbn in E. destruct (dbg && _); [discriminate|]. now injection E as <-.
      - now injection E as <-.
      - now injection E as <-. }
    exact (G h h_start s eq_refl H). }
  subst s. split.
  - intros v. unfold density. cbn. destruct (dbg && true); [discriminate|]. destruct (locate p); discriminate.
  - intros f v. unfold density_derivative, elem_sensitivity. cbn. destruct (dbg && true); [discriminate|]. destruct (locate p); discriminate.
Qed.
Example C175_example : exists s, cutrun true [he1] (fun _ => 1/2) h_start [KInit; KSens 1; KClear; KInit] = Ok s.
Proof. eexists. reflexivity. Qed.

Print Assumptions C174_value.
Print Assumptions C174_derivative.
Print Assumptions C175_value_refuted.
