(** C220-C222: stress fields for plots. *)
From Coq Require Import Reals FunctionalExtensionality.
From Coquelicot Require Import Coquelicot.
From Coq Require Import List Arith Bool Lra Lia Permutation.
From Verif Require Import Base RBool Sens_Model Sens_Spec Sens_Proofs2 Stre_Model Stre_Spec Stre_Proofs Sfd_Model Sfd_Spec Sfd_Proofs.
Import ListNotations.
Open Scope R_scope.

(** ** C220 *)
Theorem C220_field : forall th X rs, NoDup (map se_id (mesh_elems rs)) ->
  (forall e, In e (mesh_elems rs) -> se_part e = true -> elem_points th X e <> []) ->
  exists F left, stress_field th X rs = Ok (F, left) /\
    (forall e, In e (mesh_elems rs) -> se_part e = true -> shows (elem_points th X e) (F (se_id e))) /\
    (forall e, In e (mesh_elems rs) -> se_part e = false -> forall i, F (se_id e) i = 0) /\
    (forall id, ~ In id (map se_id (mesh_elems rs)) -> forall i, F id i = 0).
Proof.
  intros th X rs N H. unfold stress_field. rewrite ranks_ok by exact H. eexists _, _. split; [reflexivity|]. split; [|split].
  - intros e I P. rewrite fold_eset_in by auto. rewrite P. apply shows0_shows; auto. unfold evalue. cbn [locp].
    destruct (max_ok (elem_points th X e)) as (a & b & c & -> & S). exact S.
  - intros e I P i. rewrite fold_eset_in by auto. now rewrite P.
  - intros id I i. now rewrite fold_eset_out by auto.
Qed.
Theorem C220_distribution : forall th X rs rs' F F' l l', NoDup (map se_id (mesh_elems rs)) -> Permutation (mesh_elems rs) (mesh_elems rs') ->
  stress_field th X rs = Ok (F, l) -> stress_field th X rs' = Ok (F', l') -> forall id i, F' id i = F id i.
Proof.
  intros th X rs rs' F F' l l' N Pm E E' id i.
  assert (N' : NoDup (map se_id (mesh_elems rs'))) by (eapply Permutation_NoDup; [apply Permutation_map, Pm|exact N]).
  assert (G : forall r, (exists F l, stress_field th X r = Ok (F, l)) -> forall e, In e (mesh_elems r) -> has_points th X e).
  { intros r (F0 & l0 & E0) e I P Z. unfold stress_field in E0. rewrite (ranks_empty th X None r _ e I P Z) in E0. discriminate. }
  unfold stress_field in *. rewrite ranks_ok in E by (apply G; eauto). rewrite ranks_ok in E' by (apply G; eauto).
  inversion E; inversion E'; subst. clear E E'.
  destruct (in_dec Nat.eq_dec id (map se_id (mesh_elems rs))) as [I|I].
  - apply in_map_iff in I. destruct I as (e & <- & I). rewrite !fold_eset_in; auto. eapply Permutation_in; eauto.
  - rewrite !fold_eset_out; auto. intros C. apply I. eapply Permutation_in; [apply Permutation_sym, Permutation_map, Pm|exact C].
Qed.
Theorem C220_refused : forall th X rs e, In e (mesh_elems rs) -> se_part e = true -> elem_points th X e = [] ->
  stress_field th X rs = Fault AssertFailed.
Proof. intros th X rs e I P E. unfold stress_field. eapply ranks_empty; eauto. Qed.
(** every process keeps the data of the last element it looked at, whatever the output held before *)
Theorem C220_kept : forall th X rs F left, stress_field th X rs = Ok (F, left) -> left = map (kept th X) rs.
Proof.
  intros th X rs F left E. unfold stress_field in E. rewrite ranks_ok in E; [now inversion E|].
  intros e I P Z. rewrite (ranks_empty th X None rs _ e I P Z) in E. discriminate.
Qed.
Definition pt (v : R) : spoint := mkSp (fun _ => v) (fun i => if (i =? 0)%nat then v else 0) (fun _ _ _ => 1) (fun _ _ i => if (i =? 0)%nat then 1 else 0).
Definition bar (id : nat) (p : bool) (v : list R) : selem := mkSelem id [id] p (fun _ _ => map pt v).
Lemma mises_pt v : 0 <= v -> mises (sp_stress (pt v)) = v.
Proof. intros H. rewrite mises_quad. replace (quad (sp_stress (pt v))) with (v * v) by (unfold quad; cbn; field). now apply sqrt_square. Qed.
(** so an output that had been evaluated for the whole structure no longer holds the largest stress *)
Theorem C220_output_refuted : exists th X rs F left, stress_field th X rs = Ok (F, left) /\
  exists e q, In e (mesh_elems rs) /\ se_part e = true /\ In q (elem_points th X e) /\
  (exists old, In old (map snd rs) /\ In q old) /\
  forall q', In q' (concat left) -> mises (sp_stress q') < mises (sp_stress q).
Proof.
  set (rs := [([bar 0 true [5; -4]; bar 1 true [1; 2]], map pt [5; -4; 1; 2])]).
  assert (E : exists F left, stress_field (fun _ => 0) (fun _ => 0) rs = Ok (F, left)).
  { destruct (C220_field (fun _ => 0) (fun _ => 0) rs) as (F & left & E & _); eauto.
    - cbn. repeat constructor; cbn; intuition congruence.
    - intros e [<-|[<-|[]]] _; discriminate. }
  destruct E as (F & left & E). exists (fun _ => 0), (fun _ => 0), rs, F, left. split; [exact E|].
  exists (bar 0 true [5; -4]), (pt 5). split; [cbn; auto|]. split; [auto|]. split; [cbn; auto|]. split; [exists (map pt [5; -4; 1; 2]); split; cbn; auto|].
  intros q' I. rewrite (C220_kept _ _ _ _ _ E) in I. destruct I as [<-|[<-|[]]]; rewrite !mises_pt by lra; lra.
Qed.
Example C220_example : exists F left, stress_field (fun _ => 0) (fun _ => 0) [([bar 0 true [5; -7]], []); ([bar 2 false [9]; bar 1 true [3]], [])] = Ok (F, left) /\
  F 0%nat 0%nat = -7 /\ F 1%nat 6%nat = 3 /\ F 2%nat 12%nat = 0.
Proof.
  set (rs := [([bar 0 true [5; -7]], []); ([bar 2 false [9]; bar 1 true [3]], [])]).
  destruct (C220_field (fun _ => 0) (fun _ => 0) rs) as (F & left & E & A & B & _).
  - cbn. repeat constructor; cbn; intuition congruence.
  - intros e [<-|[<-|[<-|[]]]] P; try discriminate.
  - exists F, left. split; [exact E|]. split; [|split].
    + destruct (A (bar 0 true [5; -7]) (or_introl eq_refl) eq_refl) as (S & _ & _). destruct (S 0%nat ltac:(lia)) as (I & M). cbn in I.
      cbn [se_id bar] in I, M. destruct I as [I|[I|[]]]; auto. exfalso. rewrite <- I in M.
      specialize (M (-7) ltac:(cbn; auto)). rewrite Rabs_left, Rabs_pos_eq in M; lra.
    + destruct (A (bar 1 true [3]) ltac:(cbn; auto) eq_refl) as (_ & S & _). destruct (S 0%nat ltac:(lia)) as (I & _). cbn in I. destruct I as [I|[]]. now symmetry.
    + apply (B (bar 2 false [9])); cbn; auto.
Qed.

(** ** C221 *)
(** with one point per element the sensitivity field is the derivative of the stress field *)
Theorem C221_single_partial : forall th f rs (X : R -> vec) dX (q : selem -> R -> spoint), NoDup (map se_id (mesh_elems rs)) ->
  (forall e t, In e (mesh_elems rs) -> se_part e = true -> elem_points (Sens_Spec.at_ th f t) (X t) e = [q e t]) ->
  (forall e i, In e (mesh_elems rs) -> se_part e = true -> (i < 6)%nat ->
    is_derive (fun t => sp_strain (q e t) i) (th f) (sp_dstrain (q e (th f)) f (restrict (se_dofs e) dX) i) /\
    is_derive (fun t => sp_stress (q e t) i) (th f) (sp_dstress (q e (th f)) f (restrict (se_dofs e) dX) i)) ->
  (forall e, In e (mesh_elems rs) -> se_part e = true -> mises (sp_stress (q e (th f))) <> 0) ->
  exists (F : R -> nat -> row13) (dF : nat -> row13) left dleft,
    (forall t, stress_field (Sens_Spec.at_ th f t) (X t) rs = Ok (F t, left t)) /\
    stress_sensitivity_field th (X (th f)) f dX rs = Ok (dF, dleft) /\
    forall id i, is_derive (fun t => F t id i) (th f) (dF id i).
Proof.
  intros th f rs X dX q N H D V.
  assert (T : Sens_Spec.at_ th f (th f) = th) by (extensionality g; unfold Sens_Spec.at_; destruct (Nat.eqb_spec g f); congruence).
  assert (G : forall t, forall e, In e (mesh_elems rs) -> has_points (Sens_Spec.at_ th f t) (X t) e) by (intros t e I P; rewrite H by auto; discriminate).
  exists (fun t => fold_left (eset (Sens_Spec.at_ th f t) (X t) None) (mesh_elems rs) (fun _ _ => 0)),
         (fold_left (eset th (X (th f)) (Some (f, dX))) (mesh_elems rs) (fun _ _ => 0)), (fun t => map (kept (Sens_Spec.at_ th f t) (X t)) rs), (map (kept th (X (th f))) rs).
  split; [|split].
  - intros t. unfold stress_field. now rewrite ranks_ok by apply G.
  - unfold stress_sensitivity_field. rewrite ranks_ok; auto. intros e I. specialize (G (th f) e I). now rewrite T in G.
  - intros id i. destruct (in_dec Nat.eq_dec id (map se_id (mesh_elems rs))) as [I|I].
    + apply in_map_iff in I. destruct I as (e & <- & I). destruct (se_part e) eqn:P.
      * rewrite fold_eset_in by auto. rewrite P. unfold evalue at 1. pose proof (H e (th f) I P) as H0. rewrite T in H0. rewrite H0.
        cbn [locp max_values]. change (gather (se_dofs e) dX) with (restrict (se_dofs e) dX).
        destruct (dmises_deriv (fun t => sp_stress (q e t)) (sp_dstress (q e (th f)) f (restrict (se_dofs e) dX)) (th f)) as (v & -> & Dv).
        { intros k Hk. apply is_derive_Reals. apply (proj2 (D e k I P Hk)). }
        { apply V; auto. }
        cbn [bind]. apply (is_derive_ext (fun t => pack (sp_strain (q e t)) (sp_stress (q e t)) (mises (sp_stress (q e t))) i)).
        { intros t. rewrite fold_eset_in by auto. rewrite P. unfold evalue. rewrite (H e t I P). cbn [locp max_values]. rewrite von_mises_ok. reflexivity. }
        unfold pack. destruct (i <? 6)%nat eqn:A; [apply Nat.ltb_lt in A; apply (proj1 (D e i I P A))|]. apply Nat.ltb_ge in A.
        destruct (i <? 12)%nat eqn:B; [apply Nat.ltb_lt in B; apply (proj2 (D e (i - 6)%nat I P ltac:(lia)))|].
        destruct (i =? 12)%nat; [now apply is_derive_Reals|apply @is_derive_const].
      * rewrite fold_eset_in by auto. rewrite P. apply (is_derive_ext (fun _ => 0)); [intros t; rewrite fold_eset_in by auto; now rewrite P|].
        apply @is_derive_const.
    + rewrite fold_eset_out by auto. apply (is_derive_ext (fun _ => 0)); [intros t; now rewrite fold_eset_out by auto|]. apply @is_derive_const.
Qed.
(** with several points the "sensitivity" field is the stress field itself *)
Theorem C221_values_refuted : forall th X f dX rs, NoDup (map se_id (mesh_elems rs)) ->
  (forall e, In e (mesh_elems rs) -> se_part e = true -> (2 <= length (elem_points th X e))%nat) ->
  exists F dF l, stress_field th X rs = Ok (F, l) /\ stress_sensitivity_field th X f dX rs = Ok (dF, l) /\ forall id i, dF id i = F id i.
Proof.
  intros th X f dX rs N H.
  assert (G : forall e, In e (mesh_elems rs) -> has_points th X e) by (intros e I P Z; specialize (H e I P); rewrite Z in H; cbn in H; lia).
  unfold stress_field, stress_sensitivity_field. rewrite !ranks_ok by auto. eexists _, _, _. split; [reflexivity|]. split; [reflexivity|].
  intros id i. destruct (in_dec Nat.eq_dec id (map se_id (mesh_elems rs))) as [I|I].
  - apply in_map_iff in I. destruct I as (e & <- & I). rewrite !fold_eset_in by auto. destruct (se_part e) eqn:P; auto. unfold evalue.
    specialize (H e I P). destruct (elem_points th X e) as [|a [|b l]]; cbn in H; try lia. reflexivity.
  - now rewrite !fold_eset_out by auto.
Qed.
Theorem C221_wrong_refuted : exists th X f dX rs F dF l l' e, NoDup (map se_id (mesh_elems rs)) /\ In e (mesh_elems rs) /\ se_part e = true /\
  (forall q, In q (elem_points th X e) -> sp_dstrain q f (restrict (se_dofs e) dX) 0%nat = 1) /\
  stress_field th X rs = Ok (F, l) /\ stress_sensitivity_field th X f dX rs = Ok (dF, l') /\ dF (se_id e) 0%nat = 3.
Proof.
  set (rs := [([bar 0 true [3; 3]], [])] : list (list selem * list spoint)).
  assert (N : NoDup (map se_id (mesh_elems rs))) by (cbn; repeat constructor; cbn; auto).
  destruct (C221_values_refuted (fun _ => 0) (fun _ => 0) 0%nat (fun _ => 0) rs N) as (F & dF & l & E & E' & Q).
  - intros e [<-|[]] _. cbn. lia.
  - exists (fun _ => 0), (fun _ => 0), 0%nat, (fun _ => 0), rs, F, dF, l, l, (bar 0 true [3; 3]). split; [exact N|]. split; [cbn; auto|]. split; [auto|].
    split; [intros q [<-|[<-|[]]]; reflexivity|]. split; [exact E|]. split; [exact E'|]. rewrite Q.
    destruct (C220_field (fun _ => 0) (fun _ => 0) rs N) as (F2 & l2 & E2 & A & _).
    { intros e [<-|[]] _. discriminate. }
    rewrite E in E2. inversion E2; subst. destruct (A (bar 0 true [3; 3]) (or_introl eq_refl) eq_refl) as (S & _ & _).
    destruct (S 0%nat ltac:(lia)) as (I & _). cbn in I. destruct I as [I|[I|[]]]; now symmetry.
Qed.
Example C221_example : let e := mkSelem 0 [0%nat] true (fun th _ => [pt (th 0%nat)]) in let rs := [([e], [])] in let th := fun _ : nat => 2 in
  NoDup (map se_id (mesh_elems rs)) /\ (forall e' t, In e' (mesh_elems rs) -> se_part e' = true -> elem_points (Sens_Spec.at_ th 0 t) (fun _ => 0) e' = [pt t]) /\
  (forall i, (i < 6)%nat -> is_derive (fun t => sp_strain (pt t) i) 2 (sp_dstrain (pt 2) 0 (fun _ => 0) i) /\ is_derive (fun t => sp_stress (pt t) i) 2 (sp_dstress (pt 2) 0 (fun _ => 0) i)) /\
  mises (sp_stress (pt 2)) <> 0.
Proof.
  cbv zeta. split; [cbn; repeat constructor; cbn; auto|]. split; [intros e' t [<-|[]] _; reflexivity|]. split; [|rewrite mises_pt; lra].
  intros i _. cbn [sp_strain sp_stress sp_dstrain sp_dstress pt]. split; [auto_derive; auto|]. destruct (i =? 0)%nat; auto_derive; auto.
Qed.

(** ** C222 *)
Theorem C222_field_partial : forall X rs, NoDup (map sc_id (concat rs)) ->
  (forall e, In e (concat rs) -> sc_pos e = true -> sc_part e = true /\ sc_hi e <> [] /\ NoDup (map fst (sc_hi e)) /\
     forall s, In s (sc_hi e) -> snd s (match sc_fac e with Some x => x | None => restrict (sc_dofs e) X end) <> []) ->
  exists F, cut_stress_field true X rs = Ok F /\
    (forall e, In e (concat rs) -> sc_pos e = true -> shows (cut_points X e) (F (sc_id e))) /\
    (forall e, In e (concat rs) -> sc_pos e = false -> forall i, F (sc_id e) i = 0) /\
    (forall id, ~ In id (map sc_id (concat rs)) -> forall i, F id i = 0).
Proof.
  intros X rs N H. unfold cut_stress_field. cbn [negb andb]. rewrite cranks_fold.
  rewrite cfold_ok by (intros e I P; destruct (H e I P) as (A & _ & B & C); repeat split; auto).
  eexists. split; [reflexivity|]. split; [|split].
  - intros e I P. rewrite cset_in by auto. rewrite P. destruct (H e I P) as (_ & A & _ & C).
    assert (E : flat_map snd (csubs X e) = cut_points X e).
    { unfold csubs, cut_points. rewrite flat_map_concat_map, map_map, <- flat_map_concat_map. reflexivity. }
    apply shows0_shows; [|rewrite <- E; apply cvalue_shows].
    unfold cut_points. destruct (sc_hi e) as [|s l]; [contradiction|]. cbn. specialize (C s (or_introl eq_refl)).
    destruct (snd s _); [contradiction|discriminate].
  - intros e I P i. rewrite cset_in by auto. now rewrite P.
  - intros id I i. now rewrite cset_out by auto.
Qed.
Theorem C222_distribution : forall X rs rs' F F', NoDup (map sc_id (concat rs)) -> Permutation (concat rs) (concat rs') ->
  (forall e, In e (concat rs) -> sc_pos e = true -> sc_part e = true /\ NoDup (map fst (sc_hi e)) /\
     forall s, In s (sc_hi e) -> snd s (match sc_fac e with Some x => x | None => restrict (sc_dofs e) X end) <> []) ->
  cut_stress_field true X rs = Ok F -> cut_stress_field true X rs' = Ok F' -> forall id i, F' id i = F id i.
Proof.
  intros X rs rs' F F' N P H E E' id i. unfold cut_stress_field in *. cbn [negb andb] in *. rewrite cranks_fold in E, E'.
  assert (N' : NoDup (map sc_id (concat rs'))) by (eapply Permutation_NoDup; [apply Permutation_map, P|exact N]).
  rewrite cfold_ok in E by exact H. rewrite cfold_ok in E' by (intros e I; exact (H e (Permutation_in _ (Permutation_sym P) I))).
  inversion E; inversion E'; subst. destruct (in_dec Nat.eq_dec id (map sc_id (concat rs))) as [I|I].
  - apply in_map_iff in I. destruct I as (e & <- & I). rewrite !cset_in; auto. eapply Permutation_in; eauto.
  - rewrite !cset_out; auto. intros C. apply I. eapply Permutation_in; [apply Permutation_sym, Permutation_map, P|exact C].
Qed.
(** unlike stress_field, an element with material outside the output's subset stops the program *)
Theorem C222_subset_refuted : forall X rs e, In e (concat rs) -> sc_pos e = true -> sc_part e = false -> sc_hi e <> [] ->
  cut_stress_field true X rs = Fault AssertFailed.
Proof. intros X rs e I P Q N. unfold cut_stress_field. cbn [negb andb]. rewrite cranks_fold. eapply scut_absent; eauto. Qed.
Theorem C222_unset_refuted : forall X rs, concat rs <> [] -> cut_stress_field false X rs = Fault NullDeref.
Proof. intros X rs N. unfold cut_stress_field. destruct (concat rs); [contradiction|]. reflexivity. Qed.
(** init and clear in any order; the destructor frees nothing *)
Lemma scalls_app l l' st : fold_left scall_step (l ++ l') st = fold_left scall_step l' (fold_left scall_step l st).
Proof. apply fold_left_app. Qed.
Lemma no_loss l : forall h a held lost, ~ In SDestroy l -> fold_left scall_step l (Ok (true, h, O)) = Ok (a, held, lost) -> a = true /\ lost = O.
Proof.
  induction l as [|c l IH]; intros h a held lost N E; [cbn in E; inversion E; auto|]. cbn [fold_left] in E.
  assert (Ff : forall l f, fold_left scall_step l (Fault f) = Fault f) by (intros l'; induction l'; auto).
  assert (N' : ~ In SDestroy l) by (intros C; apply N; now right). destruct c.
  - cbn in E. destruct h; [rewrite Ff in E; discriminate|]. eapply IH; eauto.
  - cbn in E. eapply IH; eauto.
  - exfalso. apply N. now left.
Qed.
Theorem C222_cleared : forall l a held lost, ~ In SDestroy l -> scalls (l ++ [SClear; SDestroy]) = Ok (a, held, lost) -> lost = O.
Proof.
  intros l a held lost N E. unfold scalls in E. rewrite scalls_app in E.
  destruct (fold_left scall_step l (Ok (true, false, O))) as [((a' & h') & lo)|f] eqn:Q; [|cbn in E; discriminate].
  destruct (no_loss l false a' h' lo N Q) as (-> & ->). cbn in E. now inversion E.
Qed.
Theorem C222_leak_refuted : forall l held, ~ In SDestroy l -> scalls (l ++ [SInit]) = Ok (true, held, O) ->
  scalls (l ++ [SInit; SDestroy]) = Ok (false, false, 1%nat).
Proof.
  intros l held N E. unfold scalls in *. change [SInit; SDestroy] with ([SInit] ++ [SDestroy]). rewrite app_assoc, scalls_app, E.
  rewrite scalls_app in E. destruct (fold_left scall_step l (Ok (true, false, O))) as [((a' & h') & lo)|f] eqn:Q; [|cbn in E; discriminate].
  cbn in E. destruct a'; [|discriminate]. destruct h'; [discriminate|]. cbn in E. inversion E. reflexivity.
Qed.
Theorem C222_twice : forall l held lost, scalls (l ++ [SInit]) = Ok (true, held, lost) -> scalls (l ++ [SInit; SInit]) = Fault AssertFailed.
Proof.
  intros l held lost E. unfold scalls in *. change [SInit; SInit] with ([SInit] ++ [SInit]). rewrite app_assoc, scalls_app, E.
  rewrite scalls_app in E. destruct (fold_left scall_step l (Ok (true, false, O))) as [((a' & h') & lo)|f] eqn:Q; [|cbn in E; discriminate].
  cbn in E. destruct a'; [|discriminate]. destruct h'; [discriminate|]. cbn in E. inversion E. reflexivity.
Qed.
Definition cut_bar (id : nat) (pos : bool) (hi : list (nat * list R)) : scut :=
  mkScut id [id] true pos (map (fun s => (fst s, fun _ => map pt (snd s))) hi) None.
Example C222_example : exists F, cut_stress_field true (fun _ => 0) [[cut_bar 0 true [(7%nat, [1; -2]); (8%nat, [-3])]]; [cut_bar 1 false []]] = Ok F /\
  F 0%nat 0%nat = -3 /\ F 1%nat 0%nat = 0.
Proof.
  set (rs := [[cut_bar 0 true [(7%nat, [1; -2]); (8%nat, [-3])]]; [cut_bar 1 false []]]).
  destruct (C222_field_partial (fun _ => 0) rs) as (F & E & A & B & _).
  - cbn. repeat constructor; cbn; intuition congruence.
  - intros e [<-|[<-|[]]] P; [|discriminate]. repeat split; try discriminate.
    + cbn. repeat constructor; cbn; intuition congruence.
    + intros s [<-|[<-|[]]]; discriminate.
  - exists F. split; [exact E|]. split; [|apply (B (cut_bar 1 false [])); cbn; auto].
    destruct (A (cut_bar 0 true [(7%nat, [1; -2]); (8%nat, [-3])]) (or_introl eq_refl) eq_refl) as (S & _ & _).
    destruct (S 0%nat ltac:(lia)) as (I & M). cbn in I, M. specialize (M (-3) ltac:(auto)). rewrite (Rabs_left (-3)) in M by lra.
    destruct I as [I|[I|[I|[]]]]; auto; exfalso; rewrite <- I in M; [rewrite Rabs_pos_eq in M|rewrite Rabs_left in M]; lra.
Qed.
Print Assumptions C220_field.
Print Assumptions C220_distribution.
Print Assumptions C220_refused.
Print Assumptions C220_kept.
Print Assumptions C220_output_refuted.
Print Assumptions C221_single_partial.
Print Assumptions C221_values_refuted.
Print Assumptions C221_wrong_refuted.
Print Assumptions C222_field_partial.
Print Assumptions C222_distribution.
Print Assumptions C222_subset_refuted.
Print Assumptions C222_unset_refuted.
Print Assumptions C222_cleared.
Print Assumptions C222_leak_refuted.
Print Assumptions C222_twice.
