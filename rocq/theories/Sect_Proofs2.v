(** Proofs about the section cards: derivatives. *)
From Coquelicot Require Import Coquelicot.
From Coq Require Import List Arith Bool Reals Lra Lia.
From Verif Require Import Base BaseLemmas RBool Mat_Model Mat_Spec Mat_Proofs Coor_Model Coor_Proofs Sect_Model Sect_Spec Sect_Proofs.
Import ListNotations.
Open Scope R_scope.

(** ** Rules of differentiation *)
Lemma d_plus (f g : R -> R) (t a b : R) : is_derive f t a -> is_derive g t b -> is_derive (fun s => f s + g s) t (a + b).
Proof. intros. apply (is_derive_plus f g t a b); auto. Qed.
Lemma d_minus (f g : R -> R) (t a b : R) : is_derive f t a -> is_derive g t b -> is_derive (fun s => f s - g s) t (a - b).
Proof. intros. apply (is_derive_minus f g t a b); auto. Qed.
Lemma d_opp (f : R -> R) (t a : R) : is_derive f t a -> is_derive (fun s => - f s) t (- a).
Proof. intros. apply (is_derive_opp f t a); auto. Qed.
Lemma d_mul (f g : R -> R) (t a b : R) : is_derive f t a -> is_derive g t b -> is_derive (fun s => f s * g s) t (a * g t + f t * b).
Proof. intros. apply (is_derive_mul f g); auto. Qed.
Lemma d_const (c t : R) : is_derive (fun _ => c) t 0.
Proof. apply (is_derive_const c t). Qed.
Lemma d_divc (f : R -> R) (c t a : R) : is_derive f t a -> is_derive (fun s => f s / c) t (a / c).
Proof. intros H. eapply is_derive_eq; [apply (d_mul f (fun _ => / c)); [exact H|apply d_const]|]. unfold Rdiv. ring. Qed.
Lemma d_div (f g : R -> R) (t a b : R) : is_derive f t a -> is_derive g t b -> g t <> 0 -> is_derive (fun s => f s / g s) t ((a * g t - f t * b) / (g t * g t)).
Proof.
  intros F G N. eapply is_derive_eq; [apply (is_derive_div f g t a b F G N)|]. cbn. unfold Rdiv, minus, plus, opp, scal; cbn. unfold mult; cbn. field. exact N.
Qed.
Lemma d_ext (f g : R -> R) (t a : R) : (forall s : R, f s = g s) -> is_derive f t a -> is_derive g t a.
Proof. intros H K. apply is_derive_ext with (f := f); auto. Qed.
Lemma d_pow2 (f : R -> R) (t a : R) : is_derive f t a -> is_derive (fun s => f s ^ 2) t (2 * f t * a).
Proof. intros H. apply d_ext with (f := fun s => f s * f s); [intros; ring|]. eapply is_derive_eq; [apply d_mul; exact H|cbv beta; ring]. Qed.
Lemma d_pow3 (f : R -> R) (t a : R) : is_derive f t a -> is_derive (fun s => f s ^ 3) t (3 * f t ^ 2 * a).
Proof. intros H. apply d_ext with (f := fun s => f s * f s ^ 2); [intros; ring|]. eapply is_derive_eq; [apply d_mul; [exact H|apply d_pow2; exact H]|cbv beta; ring]. Qed.
Lemma d_pow4 (f : R -> R) (t a : R) : is_derive f t a -> is_derive (fun s => f s ^ 4) t (4 * f t ^ 3 * a).
Proof. intros H. apply d_ext with (f := fun s => f s ^ 2 * f s ^ 2); [intros; ring|]. eapply is_derive_eq; [apply d_mul; apply d_pow2; exact H|cbv beta; ring]. Qed.
(** Differentiate a polynomial expression in functions whose derivatives are given by hypotheses. *)
Ltac dstep :=
  match goal with
  | |- is_derive (fun s => @?f s + @?g s) _ _ => eapply (d_plus f g)
  | |- is_derive (fun s => @?f s - @?g s) _ _ => eapply (d_minus f g)
  | |- is_derive (fun s => - @?f s) _ _ => eapply (d_opp f)
  | |- is_derive (fun s => @?f s / ?c) _ _ => eapply (d_divc f)
  | |- is_derive (fun s => @?f s * @?g s) _ _ => eapply (d_mul f g)
  | |- is_derive (fun s => @?f s ^ 2) _ _ => eapply (d_pow2 f)
  | |- is_derive (fun s => @?f s ^ 3) _ _ => eapply (d_pow3 f)
  | |- is_derive (fun s => @?f s ^ 4) _ _ => eapply (d_pow4 f)
  | |- is_derive (fun _ => ?c) _ _ => eapply d_const
  | H : sec_deriv ?P _ _ |- is_derive (fun s => ?P ?x s) _ _ => exact (H x)
  | H : sec_deriv ?P _ _ |- is_derive (?P ?x) _ _ => exact (H x)
  | H : forall i j, (i < _)%nat -> (j < _)%nat -> is_derive (?F i j) _ _ |- is_derive (fun s => ?F ?i ?j s) _ _ => apply (H i j); lia
  | H : forall i j, (i < _)%nat -> (j < _)%nat -> is_derive (?F i j) _ _ |- is_derive (?F ?i ?j) _ _ => apply (H i j); lia
  end; cbv beta.
Ltac dsolve := eapply is_derive_eq; [repeat dstep|cbv beta].

Section Bars.
Variables (P : sec_path) (t : R) (d : sec).
Hypothesis D : sec_deriv P t d.
Notation at' := (sec_at P).

Lemma area_deriv : is_derive (fun s => area (at' s)) t (area_d (at' t) d).
Proof. unfold area, area_d, sec_at. dsolve. ring. Qed.
Lemma ymom_deriv : is_derive (fun s => ymom (at' s)) t (ymom_d (at' t) d).
Proof. unfold ymom, ymom_d, sec_at. dsolve. ring. Qed.
Lemma zmom_deriv : is_derive (fun s => zmom (at' s)) t (zmom_d (at' t) d).
Proof. unfold zmom, zmom_d, sec_at. dsolve. ring. Qed.
Lemma polar_deriv : is_derive (fun s => polar_in (at' s)) t (polar_in_d (at' t) d).
Proof. unfold polar_in, polar_in_d, sec_at. dsolve. field. Qed.
(** All entries of a small matrix. *)
Ltac each_entry i j :=
  (destruct i as [|[|[|[|[|[|i]]]]]]; try (exfalso; lia)); (destruct j as [|[|[|[|[|[|j]]]]]]; try (exfalso; lia)).
Lemma inert_deriv : mat_deriv (fun s => inert (at' s)) t (inert_d (at' t) d).
Proof.
  eapply dv_deriv; [apply filter_forall; intros s; unfold inert; mred; reflexivity| |unfold inert_d; mred; reflexivity].
  unfold sec_at. intros i j Hi Hj. each_entry i j; ents; dsolve; field.
Qed.
Lemma shear_co_deriv : mat_deriv (fun s => shear_co (at' s)) t (shear_co_d d).
Proof.
  eapply dv_deriv; [apply filter_forall; intros s; unfold shear_co; mred; reflexivity| |unfold shear_co_d; mred; reflexivity].
  unfold sec_at. intros i j Hi Hj. each_entry i j; ents; dsolve; field.
Qed.
Lemma inertia1_deriv : mat_deriv (fun s => inertia1 (at' s)) t (inertia1_d (at' t) d).
Proof.
  eapply dv_deriv; [apply filter_forall; intros s; unfold inertia1, inert; mred; unfold inertia1_geo; mred; reflexivity| |unfold inertia1_d, inert, inert_d; mred; unfold inertia1_geo; mred; reflexivity].
  unfold sec_at, area, area_d, ymom, ymom_d, zmom, zmom_d, polar_in, polar_in_d. intros i j Hi Hj. each_entry i j; ents; dsolve; field.
Qed.

Lemma pos_near (f : R -> R) a : is_derive f t a -> 0 < f t -> locally t (fun s => 0 < f s).
Proof.
  intros H Pf. assert (C : continuous f t) by (apply (ex_derive_continuous f); exists a; exact H).
  apply (C (fun y => 0 < y)). apply (open_gt 0); exact Pf.
Qed.
Lemma lt_near (f g : R -> R) a b : is_derive f t a -> is_derive g t b -> f t < g t -> locally t (fun s => f s < g s).
Proof.
  intros F G L. pose proof (pos_near (fun s => g s - f s) (b - a) (d_minus g f t b a G F) ltac:(cbv beta; lra)) as Q.
  revert Q. apply filter_imp. intros; lra.
Qed.
Lemma formula_deriv (f g : R -> R) a b : is_derive f t a -> is_derive g t b -> 0 < f t ->
  is_derive (fun s => tors_formula (f s) (g s)) t
   (a * g t ^ 3 * (1 / 3 - 21 / 100 * g t / f t * (1 - (g t / f t) ^ 4 / 12)) +
    f t * 3 * g t ^ 2 * b * (1 / 3 - 21 / 100 * g t / f t * (1 - (g t / f t) ^ 4 / 12)) +
    f t * g t ^ 3 * (- (21 / 100) * b / f t * (1 - (g t / f t) ^ 4 / 12) +
                 21 / 100 * g t / f t ^ 2 * a * (1 - (g t / f t) ^ 4 / 12) +
                 - (21 / 100) * g t / f t * (- 4 * g t ^ 3 * b / f t ^ 4 / 12 + 4 * g t ^ 4 / f t ^ 5 * a / 12))).
Proof.
  intros F G N. unfold tors_formula. eapply is_derive_eq.
  - apply d_mul; [apply d_mul; [exact F|apply d_pow3; exact G]|]. apply d_minus; [apply d_const|].
    apply d_mul; [apply d_div; [apply d_mul; [apply d_const|exact G]|exact F|lra]|].
    apply d_minus; [apply d_const|]. apply d_divc. apply d_pow4. apply d_div; [exact G|exact F|lra].
  - cbv beta. field. lra.
Qed.
Hypothesis Pos : positive_bar (at' t).
Lemma tors_deriv : P hy_ t <> P hz_ t -> scalar_deriv (fun s => tors (at' s)) t (tors_d (at' t) d) /\
  exists g, locally t (fun s => tors (at' s) = Ok (g s)) /\ exists x, tors_d (at' t) d = Ok x /\ is_derive g t x.
Proof.
  destruct Pos as (Py & Pz). unfold sec_at in Py, Pz. intros N.
  assert (Q : exists x g, tors_d (at' t) d = Ok x /\ locally t (fun s => tors (at' s) = Ok (g s)) /\ is_derive g t x).
  { destruct (Rlt_dec (P hz_ t) (P hy_ t)) as [L|L].
    - do 2 eexists. split; [|split].
      2:{ generalize (filter_and _ _ (lt_near (P hz_) (P hy_) (d hz_) (d hy_) (D hz_) (D hy_) L) (pos_near (P hy_) (d hy_) (D hy_) Py)). apply filter_imp.
          intros s (L' & P'). unfold tors, sec_at. rewrite (proj2 (rltb_true _ _) L'). cbv zeta. rewrite guard_ok by (constructor; [lra|constructor]).
          instantiate (1 := fun s => tors_formula (P hy_ s) (P hz_ s)). reflexivity. }
      + unfold tors_d, sec_at. rewrite (proj2 (rltb_true _ _) L). cbv zeta. rewrite guard_ok by (constructor; [lra|constructor]). reflexivity.
      + apply formula_deriv; auto.
    - assert (L2 : P hy_ t < P hz_ t) by lra. do 2 eexists. split; [|split].
      2:{ generalize (filter_and _ _ (lt_near (P hy_) (P hz_) (d hy_) (d hz_) (D hy_) (D hz_) L2) (pos_near (P hz_) (d hz_) (D hz_) Pz)). apply filter_imp.
          intros s (L' & P'). unfold tors, sec_at. match goal with |- context [rltb ?u ?v] => replace (rltb u v) with false by (symmetry; apply rltb_false; lra) end. cbv zeta. rewrite guard_ok by (constructor; [lra|constructor]).
          instantiate (1 := fun s => tors_formula (P hz_ s) (P hy_ s)). reflexivity. }
      + unfold tors_d, sec_at. match goal with |- context [rltb ?u ?v] => replace (rltb u v) with false by (symmetry; apply rltb_false; lra) end. cbv zeta. rewrite guard_ok by (constructor; [lra|constructor]). reflexivity.
      + apply formula_deriv; auto. }
  destruct Q as (x & g & Q1 & Q2 & Q3). split; [exists x, g; auto|exists g; split; [auto|exists x; auto]].
Qed.

Variables (F : mat_path) (dC : mat R).
Hypothesis DF : mat_path_deriv F t dC 2 2.
Lemma ext1_deriv : P hy_ t <> P hz_ t -> mat_deriv (fun s => ext1 (mat_at 2 2 F s) (at' s)) t (ext1_d (mat_at 2 2 F t) dC (at' t) d).
Proof.
  intros N. destruct (tors_deriv N) as (_ & g & L & x & E & Dg). destruct DF as (dr & dc & DF').
  assert (Lt : tors (at' t) = Ok (g t)) by (apply (locally_singleton _ _ L)).
  rewrite (eta dC 2 2 dr dc). pose proof area_deriv as DA.
  eapply dv_deriv;
    [apply (filter_imp (fun s => tors (at' s) = Ok (g s))); [intros s Ls; unfold ext1; rewrite Ls; unfold mat_at; mred; reflexivity|exact L]
    | |unfold ext1_d; rewrite Lt, E; cbn [bind]; unfold mat_at; mred; reflexivity].
  intros i j Hi Hj. each_entry i j; ents;
    (eapply is_derive_eq; [apply d_mul; [apply DF'; lia|first [exact DA|exact Dg]]|cbv beta; ring]).
Qed.
Lemma extbend1_deriv : mat_deriv (fun s => extbend1 (mat_at 2 2 F s) (at' s)) t (extbend1_d (mat_at 2 2 F t) dC (at' t) d).
Proof.
  destruct DF as (dr & dc & DF'). rewrite (eta dC 2 2 dr dc).
  eapply dv_deriv;
    [apply filter_forall; intros s; unfold extbend1, couple, mat_at; mred; reflexivity| |unfold extbend1_d, couple, mat_at; mred; reflexivity].
  unfold sec_at, ymom, ymom_d, zmom, zmom_d. intros i j Hi Hj. each_entry i j; ents; dsolve; ring.
Qed.
Lemma bend1_deriv : mat_deriv (fun s => bend1 (mat_at 2 2 F s) (at' s)) t (bend1_d (mat_at 2 2 F t) dC (at' t) d).
Proof.
  destruct DF as (dr & dc & DF'). rewrite (eta dC 2 2 dr dc).
  eapply dv_deriv;
    [apply filter_forall; intros s; unfold bend1, inert, mat_at; mred; reflexivity| |unfold bend1_d, inert, inert_d, mat_at; mred; reflexivity].
  unfold sec_at. intros i j Hi Hj. each_entry i j; ents; dsolve; field.
Qed.
Lemma trans1_deriv m0 : square m0 2 -> mat_deriv (fun s => trans1 (mat_at 2 2 F s) (at' s)) t (trans1_d m0 (mat_at 2 2 F t) dC (at' t) d).
Proof.
  intros (Mr & Mc). destruct DF as (dr & dc & DF'). rewrite (eta dC 2 2 dr dc), (eta m0 2 2 Mr Mc).
  eapply dv_deriv;
    [apply filter_forall; intros s; unfold trans1, shear_co, scl_at, mat_at; mred; reflexivity| |unfold trans1_d, shear_co, shear_co_d, trans1_ent, mat_at; mred; reflexivity].
  unfold sec_at, area, area_d. intros i j Hi Hj. each_entry i j; ents; dsolve; ring.
Qed.
Variables (Al : mat_path) (da : mat R).
Hypothesis DAl : mat_path_deriv Al t da 2 1.
Lemma thermA1_deriv : mat_deriv (fun s => thermA1 (mat_at 2 2 F s) (mat_at 2 1 Al s) (at' s)) t (thermA1_d (mat_at 2 2 F t) dC (mat_at 2 1 Al t) da (at' t) d).
Proof.
  destruct DF as (dr & dc & DF'). rewrite (eta dC 2 2 dr dc). destruct DAl as (ar & ac & DA'). rewrite (eta da 2 1 ar ac).
  eapply dv_deriv;
    [apply filter_forall; intros s; unfold thermA1, mat_at; mred; reflexivity| |unfold thermA1_d, mat_at; mred; reflexivity].
  unfold sec_at, area, area_d. intros i j Hi Hj. each_entry i j; ents; dsolve; ring.
Qed.
Lemma thermB1_deriv : mat_deriv (fun s => thermB1 (mat_at 2 2 F s) (mat_at 2 1 Al s) (at' s)) t (thermB1_d (mat_at 2 2 F t) dC (mat_at 2 1 Al t) da (at' t) d).
Proof.
  destruct DF as (dr & dc & DF'). rewrite (eta dC 2 2 dr dc). destruct DAl as (ar & ac & DA'). rewrite (eta da 2 1 ar ac).
  eapply dv_deriv;
    [apply filter_forall; intros s; unfold thermB1, moments, mat_at; mred; reflexivity| |unfold thermB1_d, moments, mat_at; mred; reflexivity].
  unfold sec_at, ymom, ymom_d, zmom, zmom_d. intros i j Hi Hj. each_entry i j; ents; dsolve; ring.
Qed.
End Bars.
Lemma times_area_deriv P t d r c F dM : sec_deriv P t d -> mat_path_deriv F t dM r c ->
  mat_deriv (fun s => times_area (mat_at r c F s) (sec_at P s)) t (times_area_d (mat_at r c F t) dM (sec_at P t) d).
Proof.
  intros D (dr & dc & DF'). rewrite (eta dM r c dr dc).
  eapply dv_deriv;
    [apply filter_forall; intros s; unfold times_area, mat_at; mred; reflexivity| |unfold times_area_d, mat_at; mred; reflexivity].
  unfold sec_at, area, area_d. intros i j Hi Hj. eapply is_derive_eq; [apply d_mul; [apply DF'; auto|repeat dstep]|cbv beta; ring].
Qed.

(** ** Plates *)
Section Plates.
Variables (P : sec_path) (t : R) (d : sec).
Hypothesis D : sec_deriv P t d.
Notation at' := (sec_at P).
Variables (n m : nat) (F : mat_path) (dC : mat R).
Hypothesis DF : mat_path_deriv F t dC n m.
Ltac plate := 
  destruct DF as (dr & dc & DF'); rewrite (eta dC n m dr dc);
  eapply dv_deriv; [apply filter_forall; intros s; unfold ext2, extbend2, bend2, trans2, mat_at; mred; reflexivity| |unfold ext2_d, extbend2_d, bend2_d, trans2_d, mat_at; mred; reflexivity];
  unfold sec_at; intros i j Hi Hj.
Lemma ext2_deriv : mat_deriv (fun s => ext2 (mat_at n m F s) (at' s)) t (ext2_d (mat_at n m F t) dC (at' t) d).
Proof. plate. dsolve. ring. Qed.
Lemma extbend2_deriv : mat_deriv (fun s => extbend2 (mat_at n m F s) (at' s)) t (extbend2_d (mat_at n m F t) dC (at' t) d).
Proof. plate. dsolve. ring. Qed.
Lemma bend2_deriv : mat_deriv (fun s => bend2 (mat_at n m F s) (at' s)) t (bend2_d (mat_at n m F t) dC (at' t) d).
Proof. plate. dsolve. field. Qed.
Lemma trans2_deriv : mat_deriv (fun s => trans2 (mat_at n m F s) (at' s)) t (trans2_d (mat_at n m F t) dC (at' t) d).
Proof. plate. dsolve. ring. Qed.
Variables (k : nat) (Al : mat_path) (da : mat R).
Hypothesis DAl : mat_path_deriv Al t da m k.
Lemma thermA2_deriv : mat_deriv (fun s => thermA2 (mat_at n m F s) (mat_at m k Al s) (at' s)) t (thermA2_d (mat_at n m F t) dC (mat_at m k Al t) da (at' t) d).
Proof.
  destruct DF as (dr & dc & DF'). rewrite (eta dC n m dr dc). destruct DAl as (ar & ac & DA'). rewrite (eta da m k ar ac).
  eapply dv_deriv;
    [apply filter_forall; intros s; unfold thermA2, mat_at; mred; reflexivity| |unfold thermA2_d, mat_at; mred; reflexivity].
  unfold sec_at. intros i j Hi Hj. eapply is_derive_eq.
  - apply d_mul; [|apply D]. apply (is_derive_sum m (fun s a => F i a s * Al a j s) t (fun a => F i a t * ent da a j + ent dC i a * Al a j t)).
    intros a Ha. eapply is_derive_eq; [apply d_mul; [apply DF'|apply DA']; auto|ring].
  - cbv beta. rewrite sum_plus. ring.
Qed.
Lemma thermB2_deriv : mat_deriv (fun s => thermB2 (mat_at n m F s) (mat_at m k Al s) (at' s)) t (thermB2_d (mat_at n m F t) dC (mat_at m k Al t) da (at' t) d).
Proof.
  destruct DF as (dr & dc & DF'). rewrite (eta dC n m dr dc). destruct DAl as (ar & ac & DA'). rewrite (eta da m k ar ac).
  eapply dv_deriv;
    [apply filter_forall; intros s; unfold thermB2, mat_at; mred; reflexivity| |unfold thermB2_d, mat_at; mred; reflexivity].
  unfold sec_at. intros i j Hi Hj. eapply is_derive_eq.
  - apply d_mul; [|apply d_mul; apply D]. apply (is_derive_sum m (fun s a => F i a s * Al a j s) t (fun a => F i a t * ent da a j + ent dC i a * Al a j t)).
    intros a Ha. eapply is_derive_eq; [apply d_mul; [apply DF'|apply DA']; auto|ring].
  - cbv beta. rewrite sum_plus. ring.
Qed.
End Plates.
Lemma inertia2_deriv P t d : sec_deriv P t d -> P off_ t = 0 -> d off_ = 0 -> mat_deriv (fun s => inertia2 (sec_at P s)) t (inertia2_d (sec_at P t) d).
Proof.
  intros D O dO.
  eapply dv_deriv;
    [apply filter_forall; intros s; unfold inertia2; mred; reflexivity| |unfold inertia2_d; cbv zeta; mred; reflexivity].
  unfold sec_at. intros i j Hi Hj.
  (destruct i as [|[|[|[|[|[|i]]]]]]; try (exfalso; lia)); (destruct j as [|[|[|[|[|[|j]]]]]]; try (exfalso; lia)); ents; dsolve; rewrite ?O, ?dO; field.
Qed.

(** ** A kink *)
Lemma flat_left (h : R -> R) (t l : R) : is_derive h t l -> locally t (fun s => s <= t -> h s = 0) -> l = 0.
Proof.
  intros H L. apply is_derive_Reals in H. destruct (Req_dec l 0) as [|N]; [assumption|exfalso].
  assert (E : 0 < Rabs l / 2) by (pose proof (Rabs_pos_lt l N); lra).
  destruct (H _ E) as (de & Q). destruct L as (eps & L).
  pose proof (cond_pos de) as Dp. pose proof (cond_pos eps) as Ep.
  set (m := Rmin de eps / 2). assert (M : 0 < m) by (unfold m; pose proof (Rmin_glb_lt _ _ _ Dp Ep); lra).
  assert (M1 : m < de) by (unfold m; pose proof (Rmin_l de eps); unfold m in M; lra). assert (M2 : m < eps) by (unfold m; pose proof (Rmin_r de eps); unfold m in M; lra).
  specialize (Q (- m) ltac:(lra) ltac:(rewrite Rabs_Ropp, Rabs_right; lra)).
  assert (h t = 0) by (apply (L t); [apply ball_center|lra]).
  assert (h (t + - m) = 0).
  { apply (L (t + - m)); [|lra]. unfold ball; cbn. unfold AbsRing_ball, abs, minus, plus, opp; cbn. replace (t + - m + - t) with (- m) by ring. rewrite Rabs_Ropp, Rabs_right; lra. }
  rewrite H0, H1 in Q. replace ((0 - 0) / - m - l) with (- l) in Q by (field; lra). rewrite Rabs_Ropp in Q. lra.
Qed.
Lemma flat_right (h : R -> R) (t l : R) : is_derive h t l -> locally t (fun s => t <= s -> h s = 0) -> l = 0.
Proof.
  intros H L. apply is_derive_Reals in H. destruct (Req_dec l 0) as [|N]; [assumption|exfalso].
  assert (E : 0 < Rabs l / 2) by (pose proof (Rabs_pos_lt l N); lra).
  destruct (H _ E) as (de & Q). destruct L as (eps & L).
  pose proof (cond_pos de) as Dp. pose proof (cond_pos eps) as Ep.
  set (m := Rmin de eps / 2). assert (M : 0 < m) by (unfold m; pose proof (Rmin_glb_lt _ _ _ Dp Ep); lra).
  assert (M1 : m < de) by (unfold m; pose proof (Rmin_l de eps); unfold m in M; lra). assert (M2 : m < eps) by (unfold m; pose proof (Rmin_r de eps); unfold m in M; lra).
  specialize (Q m ltac:(lra) ltac:(rewrite Rabs_right; lra)).
  assert (h t = 0) by (apply (L t); [apply ball_center|lra]).
  assert (h (t + m) = 0).
  { apply (L (t + m)); [|lra]. unfold ball; cbn. unfold AbsRing_ball, abs, minus, plus, opp; cbn. replace (t + m + - t) with m by ring. rewrite Rabs_right; lra. }
  rewrite H0, H1 in Q. replace ((0 - 0) / m - l) with (- l) in Q by (field; lra). rewrite Rabs_Ropp in Q. lra.
Qed.
(** A square bar whose side hy grows: no number is the derivative of its torsional constant. *)
Definition growing : sec_path := fun x s => match x with hy_ => s | _ => 1 end.
Lemma tors_kink r : ~ scalar_deriv (fun s => tors (sec_at growing s)) 1 (Ok r).
Proof.
  intros (x & g & E & L & Dg). injection E as <-.
  assert (P0 : locally 1 (fun s : R => 0 < s)) by (apply (open_gt 0); lra).
  assert (V1 : is_derive (fun s : R => s) 1 1) by apply (is_derive_id (1 : R)).
  assert (A1 : is_derive (fun s => tors_formula 1 s) 1 (3 / 10)).
  { eapply is_derive_eq; [apply (formula_deriv 1 (fun _ => 1) (fun s => s) 0 1); [apply d_const|exact V1|lra]|]. cbv beta. field. }
  assert (A2 : is_derive (fun s => tors_formula s 1) 1 (79 / 300)).
  { eapply is_derive_eq; [apply (formula_deriv 1 (fun s => s) (fun _ => 1) 1 0); [exact V1|apply d_const|lra]|]. cbv beta. field. }
  assert (Q1 : r - 3 / 10 = 0).
  { apply (flat_left (fun s => g s - tors_formula 1 s) 1); [apply (d_minus g); auto|]. generalize (filter_and _ _ L P0). apply filter_imp. intros s (Ls & Ps) Hs.
    assert (G : tors (sec_at growing s) = Ok (tors_formula 1 s)).
    { unfold tors, sec_at, growing. match goal with |- context [rltb ?u ?v] => replace (rltb u v) with false by (symmetry; apply rltb_false; lra) end. cbv zeta. rewrite guard_ok by (constructor; [lra|constructor]). reflexivity. }
    rewrite G in Ls. injection Ls as <-. ring. }
  assert (Q2 : r - 79 / 300 = 0).
  { apply (flat_right (fun s => g s - tors_formula s 1) 1); [apply (d_minus g); auto|]. generalize (filter_and _ _ L P0). apply filter_imp. intros s (Ls & Ps) Hs.
    assert (G : tors (sec_at growing s) = Ok (tors_formula s 1)).
    { unfold tors, sec_at, growing. destruct (rltb 1 s) eqn:B.
      - cbv zeta. rewrite guard_ok by (constructor; [lra|constructor]). reflexivity.
      - apply rltb_false in B. assert (s = 1) by lra. subst s. cbv zeta. rewrite guard_ok by (constructor; [lra|constructor]). reflexivity. }
    rewrite G in Ls. injection Ls as <-. ring. }
  lra.
Qed.
