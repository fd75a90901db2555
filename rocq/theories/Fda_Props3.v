(** C240: sensitivity of an element with oscillating walls. *)
From Coq Require Import List Arith Bool Lia Reals Lra FunctionalExtensionality.
From Verif Require Import Base BaseLemmas RBool Stre_Proofs Flui_Model Flui_Spec Flui_Proofs Cfe_Model Cfe_Spec Fdf_Model Fdf_Spec Fdf_Proofs Fdf_Proofs2 Fdf_Props Fdf_Props2 Fda_Model Fda_Spec Fda_Props Fda_Props2.
Import ListNotations.
Open Scope R_scope.

Section Props.
Variables (d : nat) (cp cv : R) (nphi : nat).
Notation elem := (fd_elem d cp cv nphi).
Lemma list_deriv {A} (g : A -> R -> R) (l : list A) (h : list R) t0 : Forall2 (fun a y => derivable_pt_lim (g a) t0 y) l h ->
  derivable_pt_lim (fun t => fold_right Rplus 0 (map (fun a => g a t) l)) t0 (fold_right Rplus 0 h).
Proof.
  induction 1 as [|a y l h Ha _ IH]; cbn [map fold_right]; [apply derivable_pt_lim_const|].
  apply (derivable_pt_lim_plus (g a) (fun t => fold_right Rplus 0 (map (fun a => g a t) l))); auto.
Qed.
(** The sensitivity is the derivative of the vector for a frequency that depends on the parameter, with oscillating walls and sides of all kinds,
    at an amplitude and a time scale that do not; a wall whose normal the base motion turns has a displacement. *)
Theorem C240_frequency_partial : forall (F : R -> freqfn) z t0 tau shock qps sides x r s b, valid_dim d -> 0 < cv < cp ->
  (forall t, ff_factor (F t) = Ok b) -> derivable_pt_lim (fun t => ff_om (F t)) t0 (ff_dom (F t0)) ->
  (forall l w, In (l, FdSlip w) sides -> fs_disp w = None -> forall q i, In q l -> (i < 3)%nat -> at_pt (fs_rot w) q i = 0) ->
  (forall t, exists m, elem (Some (F t)) false tau shock qps sides x z = Ok (r t, m)) ->
  fd_elem_sens d cp cv nphi (Some (F t0)) tau shock qps sides x z (ev0, ev0) = Ok s -> cderiv r t0 s.
Proof.
  intros F z t0 tau shock qps sides x r s b D G HB HO HN HR HS.
  destruct (C240_sensitivity_parts _ _ _ _ _ _ _ _ _ _ _ _ _ HS) as (si & ss & ES & FS & S1 & S2).
  set (I := fun t => match fd_internal d cp cv nphi (Some (F t)) false tau shock qps x z ((ev0, ev0), (em0, em0)) with Ok p => fst p | _ => (ev0, ev0) end).
  set (P := fun sc t => match fd_sides d cp cv nphi (Some (F t)) false [sc] x z ((ev0, ev0), (em0, em0)) with Ok p => fst p | _ => (ev0, ev0) end).
  assert (HZ : cderiv (fun _ => z) t0 (ev0, ev0)) by (split; intros v k; apply derivable_pt_lim_const).
  assert (HI : forall t, fd_internal d cp cv nphi (Some (F t)) false tau shock qps x z ((ev0, ev0), (em0, em0)) = Ok (I t, (em0, em0)) /\
    Forall (fun sc => fd_sides d cp cv nphi (Some (F t)) false [sc] x z ((ev0, ev0), (em0, em0)) = Ok (P sc t, (em0, em0))) sides /\
    (forall v k, fst (r t) v k = fst (I t) v k + fold_right Rplus 0 (map (fun sc => fst (P sc t) v k) sides)) /\
    (forall v k, snd (r t) v k = snd (I t) v k + fold_right Rplus 0 (map (fun sc => snd (P sc t) v k) sides))).
  { intros t. destruct (HR t) as [m H]. destruct (C240_parts _ _ _ _ _ _ _ _ _ _ _ _ _ H) as (ri & ps & EI & FP & R1 & R2 & _ & _).
    assert (EM : snd ri = (em0, em0)) by (unfold fd_internal in EI; rewrite HB in EI; cbn [bind] in EI; destruct (fd_matrices _ _ _ _ _ _ _ _); [|discriminate]; cbn in EI; injection EI as <-; reflexivity).
    assert (EI' : I t = fst ri) by (unfold I; rewrite EI; reflexivity).
    assert (FQ : Forall2 (fun sc p => fd_sides d cp cv nphi (Some (F t)) false [sc] x z ((ev0, ev0), (em0, em0)) = Ok (P sc t, (em0, em0)) /\ fst p = P sc t) sides ps).
    { clear - FP D G HB. induction FP as [|sc p l ps E _ IH]; constructor; auto.
      assert (E1 : fst p = P sc t) by (unfold P; rewrite E; reflexivity). split; auto. rewrite E.
      assert (E2 : snd p = (em0, em0)).
      { unfold fd_sides in E. rewrite HB in E. cbn [bind] in E. destruct (sides_affine d cp cv nphi _ _ _ _ _ _ D G _ _ E) as [-> _]. reflexivity. }
      rewrite <- E1, <- E2. destruct p; reflexivity. }
    split; [rewrite EI, EI', <- EM; destruct ri; reflexivity|]. cbn [fst snd] in R1, R2. rewrite EI'.
    split; [clear - FQ; induction FQ as [|? ? ? ? [? _]]; constructor; auto|].
    assert (Q : forall h : cvec -> R, fold_right Rplus 0 (map (fun p : cvec * cmat => h (fst p)) ps) = fold_right Rplus 0 (map (fun sc => h (P sc t)) sides)).
    { intros h. clear - FQ. induction FQ as [|sc p l ps [_ E] _ IH]; cbn [map fold_right]; auto. rewrite E, IH. reflexivity. }
    split; intros v k; [rewrite R1|rewrite R2]; f_equal; [exact (Q (fun c => fst c v k))|exact (Q (fun c => snd c v k))]. }
  pose proof (C234_interior_partial d cp cv nphi F (fun _ => z) t0 (ev0, ev0) tau shock qps x I si b (em0, em0) HB HO HZ (fun t => proj1 (HI t)) ES) as [I1 I2].
  assert (FD : Forall2 (fun sc p => cderiv (P sc) t0 p) sides ss).
  { assert (HP : forall sc, In sc sides -> forall t, fd_sides d cp cv nphi (Some (F t)) false [sc] x z ((ev0, ev0), (em0, em0)) = Ok (P sc t, (em0, em0))).
    { intros sc Hin t. destruct (HI t) as (_ & Q & _). rewrite Forall_forall in Q. auto. }
    clear - FS HP HB HO HN HZ G. induction FS as [|sc p l ss E _ IH]; constructor.
    - destruct sc as [qs c]. assert (NW : (forall w, c <> FdSlip w) -> Forall no_wall [(qs, c)]) by (intros N; constructor; [|constructor]; destruct c; try exact Logic.I; exfalso; eapply N; reflexivity). destruct c as [|w|inf| |].
      + refine (C234_sides d cp cv nphi F (fun _ => z) t0 (ev0, ev0) _ x _ p b (em0, em0) (NW _) HB HZ (fun t => HP _ (or_introl eq_refl) t) E); discriminate.
      + eapply C234_wall_partial; [exact G|exact HB|exact HO| |intros t; apply HP; left; auto|exact E]. apply (HN qs w). left; auto.
      + refine (C234_sides d cp cv nphi F (fun _ => z) t0 (ev0, ev0) _ x _ p b (em0, em0) (NW _) HB HZ (fun t => HP _ (or_introl eq_refl) t) E); discriminate.
      + refine (C234_sides d cp cv nphi F (fun _ => z) t0 (ev0, ev0) _ x _ p b (em0, em0) (NW _) HB HZ (fun t => HP _ (or_introl eq_refl) t) E); discriminate.
      + refine (C234_sides d cp cv nphi F (fun _ => z) t0 (ev0, ev0) _ x _ p b (em0, em0) (NW _) HB HZ (fun t => HP _ (or_introl eq_refl) t) E); discriminate.
    - apply IH; intros; [eapply HN; eauto; right; eauto|apply HP; right; auto]. }
  split; intros v k.
  - apply deriv_ext with (f := fun t => fst (I t) v k + fold_right Rplus 0 (map (fun sc => fst (P sc t) v k) sides)).
    + exists 1. split; [lra|]. intros t _. destruct (HI t) as (_ & _ & -> & _). reflexivity.
    + rewrite S1. apply (derivable_pt_lim_plus (fun t => fst (I t) v k)); [apply I1|].
      apply (list_deriv (fun sc t => fst (P sc t) v k)). clear - FD. induction FD as [|? ? ? ? [? ?]]; cbn; constructor; auto.
  - apply deriv_ext with (f := fun t => snd (I t) v k + fold_right Rplus 0 (map (fun sc => snd (P sc t) v k) sides)).
    + exists 1. split; [lra|]. intros t _. destruct (HI t) as (_ & _ & _ & ->). reflexivity.
    + rewrite S2. apply (derivable_pt_lim_plus (fun t => snd (I t) v k)); [apply I2|].
      apply (list_deriv (fun sc t => snd (P sc t) v k)). clear - FD. induction FD as [|? ? ? ? [? ?]]; cbn; constructor; auto.
Qed.
(** The loop over the elements: a frequency set once serves every element made until it is cleared. *)
Theorem C240_every : forall o f cs o' asked tau shock qps sides x z zs, op_freq o = Some f -> (forall c, In c cs -> c = InitElem \/ c = ClearElem) ->
  after (cs ++ [InitElem]) o = Ok o' ->
  ops_calc d cp cv nphi o' asked tau shock qps sides x z = fd_elem d cp cv nphi (Some f) asked tau shock qps sides x z /\
  ops_sens d cp cv nphi o' tau shock qps sides x z zs = fd_elem_sens d cp cv nphi (Some f) tau shock qps sides x z zs.
Proof.
  intros o f cs o' asked tau shock qps sides x z zs. revert o. induction cs as [|c cs IH]; intros o E C H.
  - cbn in H. destruct (op_elem o); [discriminate|]. cbn in H. injection H as <-. unfold ops_calc, ops_sens. cbn [op_elem]. rewrite E. split; reflexivity.
  - cbn [app after] in H. destruct (ops_call c o) as [o1|] eqn:E1; [|discriminate]. cbn [bind] in H. apply (IH o1); auto; [|intros c' Hc; apply C; right; auto].
    destruct (C c (or_introl eq_refl)) as [-> | ->]; cbn in E1; [destruct (op_elem o); [discriminate|]|]; injection E1 as <-; exact E.
Qed.
End Props.
Example C240_every_witness : exists o, after ([InitElem; ClearElem; InitElem; ClearElem] ++ [InitElem]) (mkOps (Some (mkFq false 1 1 1 0)) None) = Ok o.
Proof. eexists. reflexivity. Qed.
(** A moving wall and an interior point, at every frequency. *)
Example C240_frequency_witness : (forall t, exists r, fd_elem 1 2 1 1 (Some (mkFq false t 1 1 1)) false (fun _ _ => mx0) None [qw] [([qw], FdSlip rew); ([qw], FdDirichlet)] xr ziu = Ok r) /\
  (exists s, fd_elem_sens 1 2 1 1 (Some (mkFq false 1 1 1 1)) (fun _ _ => mx0) None [qw] [([qw], FdSlip rew); ([qw], FdDirichlet)] xr ziu (ev0, ev0) = Ok s) /\
  (forall q i, In q [qw] -> (i < 3)%nat -> at_pt (fs_rot rew) q i = 0) /\ derivable_pt_lim (fun t => ff_om (mkFq false t 1 1 1)) 1 1.
Proof.
  assert (EU : fe_U 1 qw xr = Ur) by (apply functional_extensionality; intros i; cbv -[Rplus Rmult IZR]; destruct i as [|[|[|]]]; ring).
  assert (Q : forall f, ff_factor f = Ok 1 -> exists r, fd_internal 1 2 1 1 (Some f) false (fun _ _ => mx0) None [qw] xr ziu ((ev0, ev0), (em0, em0)) = Ok r).
  { intros f Ef. eapply C232_runs; [left; reflexivity|lra|exact Ef|apply xr_phys]. }
  split; [|split; [|split]].
  - intros t. unfold fd_elem. destruct (Q (mkFq false t 1 1 1) eq_refl) as [a ->]. cbn [bind].
    unfold fd_sides, ff_factor, fd_side, wall_side, wall_step. cbn [bind over fst snd ff_red ff_om rew fs_dw fs_dn]. rewrite EU, Ur_ok. cbn [bind]. eauto.
  - destruct (Q (mkFq false 1 1 1 1) eq_refl) as [a Ea]. unfold fd_elem_sens, fd_internal_sens. unfold fd_internal in Ea. cbn [ff_factor ff_red bind] in *.
    destruct (fd_matrices _ _ _ _ _ _ _ _) as [km|]; [|discriminate]. cbn [bind].
    unfold fd_sides_sens, ff_factor, fd_side_sens, wall_sens_side, wall_sens_step. cbn [bind over fst snd ff_red ff_om rew fs_dw fs_dn fs_disp fs_rot]. rewrite EU, Ur_ok. cbn [bind]. eauto.
  - intros q i _ _. reflexivity.
  - cbn [ff_om]. apply derivable_pt_lim_id.
Qed.
Print Assumptions C240_frequency_partial.
Print Assumptions C240_frequency_witness.
Print Assumptions C240_every.
Print Assumptions C240_every_witness.
