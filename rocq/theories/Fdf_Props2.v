(** C234: sensitivity of harmonic small motions. *)
From Coq Require Import List Arith Bool Lia Reals Lra FunctionalExtensionality.
From Verif Require Import Base BaseLemmas RBool Stre_Proofs Stre_Proofs2 Flui_Model Flui_Spec Flui_Proofs Flui_Proofs2 Flui_Props Cfe_Model Fdf_Model Fdf_Spec Fdf_Proofs Fdf_Proofs2 Fdf_Props.
Import ListNotations.
Open Scope R_scope.

(** derivative at t0 of a complex vector that depends on a parameter *)
Definition cderiv (r : R -> cvec) (t0 : R) (s : cvec) : Prop :=
  (forall v k, derivable_pt_lim (fun t => fst (r t) v k) t0 (fst s v k)) /\ (forall v k, derivable_pt_lim (fun t => snd (r t) v k) t0 (snd s v k)).
Lemma emul_deriv d nphi J (Z : R -> evec) z t0 : (forall v k, derivable_pt_lim (fun t => Z t v k) t0 (z v k)) ->
  forall v k, derivable_pt_lim (fun t => emul d nphi J (Z t) v k) t0 (emul d nphi J z v k).
Proof.
  intros H v k. unfold emul.
  assert (S : forall n (g : nat -> R -> R) l, (forall i, derivable_pt_lim (g i) t0 (l i)) -> derivable_pt_lim (fun t => sum n (fun i => g i t)) t0 (sum n l)).
  { induction n; intros g l Hg; cbn [sum]; [apply derivable_pt_lim_const|]. apply (derivable_pt_lim_plus (fun t => sum n (fun i => g i t)) (g n)); auto. }
  apply (S _ (fun i t => sum nphi (fun a => J v k i a * Z t i a)) (fun i => sum nphi (fun a => J v k i a * z i a))). intros i.
  apply (S _ (fun a t => J v k i a * Z t i a) (fun a => J v k i a * z i a)). intros a.
  apply (derivable_pt_lim_scal (fun t => Z t i a)). apply H.
Qed.
Lemma prod_deriv f g t0 a b : derivable_pt_lim f t0 a -> derivable_pt_lim g t0 b -> derivable_pt_lim (fun t => f t * g t) t0 (a * g t0 + f t0 * b).
Proof. intros. apply (derivable_pt_lim_mult f g); auto. Qed.

Section Props.
Variables (d : nat) (cp cv : R) (nphi : nat).
Notation mul := (emul d nphi).

(** The interior: frequency and amplitude depend on the parameter, the scale of time does not. *)
Theorem C234_interior_partial : forall (F : R -> freqfn) (Z : R -> cvec) t0 zs tau shock qps x r s b m,
  (forall t, ff_factor (F t) = Ok b) -> derivable_pt_lim (fun t => ff_om (F t)) t0 (ff_dom (F t0)) -> cderiv Z t0 zs ->
  (forall t, fd_internal d cp cv nphi (Some (F t)) false tau shock qps x (Z t) ((ev0, ev0), m) = Ok (r t, m)) ->
  fd_internal_sens d cp cv nphi (Some (F t0)) tau shock qps x (Z t0) zs (ev0, ev0) = Ok s -> cderiv r t0 s.
Proof.
  intros F Z t0 zs tau shock qps x r s b m HB HO [HZ1 HZ2] HR HS.
  unfold fd_internal_sens in HS. rewrite HB in HS. cbn [bind] in HS.
  destruct (fd_matrices d cp cv nphi tau shock qps x) as [km|] eqn:EM; [|discriminate]. cbn [bind] in HS. injection HS as <-.
  assert (E : forall t, r t = c_add (ev0, ev0) (cmul d nphi (em_scale b (fst km), em_scale (ff_om (F t)) (snd km)) (Z t))).
  { intros t. specialize (HR t). unfold fd_internal in HR. rewrite HB in HR. cbn [bind] in HR. rewrite EM in HR. cbn [bind] in HR. now injection HR as <-. }
  split; intros v k.
  - apply deriv_ext with (f := fun t => b * mul (fst km) (fst (Z t)) v k - ff_om (F t) * mul (snd km) (snd (Z t)) v k).
    + exists 1. split; [lra|]. intros t _. rewrite E. cbn [fst snd c_add cmul]. unfold c_add, cmul, ev_add, ev0; cbn [fst snd]. rewrite !emul_scale. ring.
    + unfold c_add, cmul, ev_add, ev0; cbn [fst snd]. rewrite !emul_scale, !emul_zero.
      replace (0 + _) with (b * mul (fst km) (fst zs) v k - (ff_dom (F t0) * mul (snd km) (snd (Z t0)) v k + ff_om (F t0) * mul (snd km) (snd zs) v k)) by ring.
      apply (derivable_pt_lim_minus (fun t => b * mul (fst km) (fst (Z t)) v k) (fun t => ff_om (F t) * mul (snd km) (snd (Z t)) v k)).
      * apply (derivable_pt_lim_scal (fun t => mul (fst km) (fst (Z t)) v k)). apply emul_deriv. exact HZ1.
      * apply (prod_deriv (fun t => ff_om (F t))); auto. apply emul_deriv. exact HZ2.
  - apply deriv_ext with (f := fun t => b * mul (fst km) (snd (Z t)) v k + ff_om (F t) * mul (snd km) (fst (Z t)) v k).
    + exists 1. split; [lra|]. intros t _. rewrite E. cbn [fst snd c_add cmul]. unfold c_add, cmul, ev_add, ev0; cbn [fst snd]. rewrite !emul_scale. ring.
    + unfold c_add, cmul, ev_add, ev0; cbn [fst snd]. rewrite !emul_scale, !emul_zero.
      replace (0 + _) with (b * mul (fst km) (snd zs) v k + (ff_dom (F t0) * mul (snd km) (fst (Z t0)) v k + ff_om (F t0) * mul (snd km) (fst zs) v k)) by ring.
      apply (derivable_pt_lim_plus (fun t => b * mul (fst km) (snd (Z t)) v k) (fun t => ff_om (F t) * mul (snd km) (fst (Z t)) v k)).
      * apply (derivable_pt_lim_scal (fun t => mul (fst km) (snd (Z t)) v k)). apply emul_deriv. exact HZ2.
      * apply (prod_deriv (fun t => ff_om (F t))); auto. apply emul_deriv. exact HZ1.
Qed.

(** A moving wall, amplitude fixed: right if the normal turns only where a displacement is given. *)
Lemma wall_sens_over dom b x qps : 0 < cv < cp -> forall acc s, over (wall_sens_step d cp cv nphi dom b x) qps acc = Ok s ->
  let c q := edot (wall_dw b q) (rv (vplus (pad d (fq_n q)) (match fs_disp b with None => fun _ => 0 | Some _ => at_pt (fs_rot b) q end))) in
  let st q := prim_of d cp cv false (fe_U nphi q x) in
  (forall v k, fst s v k = fst acc v k + lsumq (fun q => fq_w q * (fq_N q k * (- dom * snd (c q) * (fe_U nphi q x v + if Nat.eqb v (d + 1) then p_p (st q) else 0)))) qps) /\
  (forall v k, snd s v k = snd acc v k + lsumq (fun q => fq_w q * (fq_N q k * (dom * fst (c q) * (fe_U nphi q x v + if Nat.eqb v (d + 1) then p_p (st q) else 0)))) qps).
Proof.
  intros G. induction qps as [|q l IH]; intros acc s H; cbn [over] in H.
  - injection H as <-. unfold lsumq; cbn. split; intros; ring.
  - destruct (wall_sens_step _ _ _ _ _ _ _ q acc) as [a|] eqn:E; [|discriminate]. cbn [bind] in H.
    destruct (IH a s H) as [A1 A2]. unfold wall_sens_step in E.
    destruct (prim_init d cp cv false (fe_U nphi q x)) as [p|] eqn:EI; [|discriminate]. cbn [bind] in E.
    destruct (prim_init_ok _ _ _ _ _ _ G EI) as (Ep & _). injection E as <-. cbn [fst snd] in A1, A2.
    cbv zeta. unfold lsumq in *. cbn [map fold_right]. rewrite <- Ep.
    split; intros v k; [rewrite A1|rewrite A2]; unfold add_vec;
    match goal with |- context[fold_right Rplus 0 (map ?g l)] => generalize (fold_right Rplus 0 (map g l)); intro end;
    unfold edot, rv; cbn [fst snd sum]; destruct (Nat.eqb v (d + 1)); ring.
Qed.
Lemma lsum_deriv (g : fpt -> R -> R) (h : fpt -> R) l t0 : (forall q, In q l -> derivable_pt_lim (g q) t0 (h q)) ->
  derivable_pt_lim (fun t => lsumq (fun q => g q t) l) t0 (lsumq h l).
Proof.
  unfold lsumq. induction l as [|q l IH]; intros H; cbn [map fold_right]; [apply derivable_pt_lim_const|].
  apply (derivable_pt_lim_plus (g q) (fun t => fold_right Rplus 0 (map (fun q => g q t) l))); [apply H; left; auto|apply IH; intros; apply H; right; auto].
Qed.
Lemma slip_run F asked b x z qps acc r : fd_sides d cp cv nphi (Some F) asked [(qps, FdSlip b)] x z acc = Ok r -> exists bV, ff_factor F = Ok bV /\
  over (wall_step d cp cv nphi bV (ff_om F) asked b x z) qps acc = Ok r.
Proof.
  intros H. unfold fd_sides in H. destruct (ff_factor F) as [bV|]; [|discriminate]. cbn [bind over] in H.
  destruct (fd_side _ _ _ _ _ _ _ _ _ _ acc) as [r''|] eqn:E; [|discriminate]. cbn [bind] in H. injection H as ->.
  unfold fd_side in E. cbn [fst snd] in E. unfold wall_side in E. exists bV. split; auto. destruct (fs_dw b), (fs_dn b); auto; discriminate.
Qed.
Lemma slip_sens_run F b x zs qps acc s : fd_sides_sens d cp cv nphi (Some F) [(qps, FdSlip b)] x zs acc = Ok s ->
  over (wall_sens_step d cp cv nphi (ff_dom F) b x) qps acc = Ok s.
Proof.
  intros H. unfold fd_sides_sens in H. destruct (ff_factor F) as [bV|]; [|discriminate]. cbn [bind over] in H.
  destruct (fd_side_sens _ _ _ _ _ _ _ _ _ acc) as [r''|] eqn:E; [|discriminate]. cbn [bind] in H. injection H as ->.
  unfold fd_side_sens in E. cbn [fst snd] in E. unfold wall_sens_side in E. destruct (fs_disp b), (fs_rot b), (fs_dw b), (fs_dn b); auto; discriminate.
Qed.
Theorem C234_wall_partial : forall (F : R -> freqfn) t0 b x z zs qps r s bV m,
  0 < cv < cp -> (forall t, ff_factor (F t) = Ok bV) -> derivable_pt_lim (fun t => ff_om (F t)) t0 (ff_dom (F t0)) ->
  (fs_disp b = None -> forall q i, In q qps -> (i < 3)%nat -> at_pt (fs_rot b) q i = 0) ->
  (forall t, fd_sides d cp cv nphi (Some (F t)) false [(qps, FdSlip b)] x z ((ev0, ev0), m) = Ok (r t, m)) ->
  fd_sides_sens d cp cv nphi (Some (F t0)) [(qps, FdSlip b)] x zs (ev0, ev0) = Ok s -> cderiv r t0 s.
Proof.
  intros F t0 b x z zs qps r s bV m G HB HO HN HR HS.
  pose proof (slip_sens_run _ _ _ _ _ _ _ HS) as HS'. destruct (wall_sens_over _ _ _ _ G _ _ HS') as [S1 S2]. cbv zeta in S1, S2.
  set (fl t q := wall_point d cp cv bV (ff_om (F t)) b q (fe_U nphi q x) (prim_of d cp cv false (fe_U nphi q x)) (fe_U nphi q (fst z), fe_U nphi q (snd z))).
  assert (E : forall t, (forall v k, fst (r t) v k = lsumq (fun q => fq_w q * (fq_N q k * fst (fl t q) v)) qps) /\ (forall v k, snd (r t) v k = lsumq (fun q => fq_w q * (fq_N q k * snd (fl t q) v)) qps)).
  { intros t. destruct (slip_run _ _ _ _ _ _ _ _ (HR t)) as (bV' & EB & E). rewrite HB in EB. injection EB as <-.
    destruct (wall_over d cp cv nphi bV (ff_om (F t)) false b x z qps G _ _ E) as (_ & A1 & A2 & _).
    split; intros v k; [rewrite A1|rewrite A2]; cbn [fst snd]; unfold ev0; rewrite Rplus_0_l; reflexivity. }
  assert (C : forall q, In q qps -> edot (wall_dw b q) (rv (vplus (pad d (fq_n q)) (match fs_disp b with None => fun _ => 0 | Some _ => at_pt (fs_rot b) q end))) =
     edot (wall_dw b q) (rv (vplus (pad d (fq_n q)) (at_pt (fs_rot b) q)))).
  { intros q Hq. destruct (fs_disp b); [reflexivity|]. unfold edot, rv, vplus; cbn [fst snd sum]. rewrite !(HN eq_refl q) by (auto; lia). reflexivity. }
  split; intros v k.
  - apply deriv_ext with (f := fun t => lsumq (fun q => fq_w q * (fq_N q k * fst (fl t q) v)) qps).
    { exists 1. split; [lra|]. intros t _. destruct (E t) as [-> _]. reflexivity. }
    rewrite S1. cbn [fst]. unfold ev0 at 1. rewrite Rplus_0_l.
    apply (lsum_deriv (fun q t => fq_w q * (fq_N q k * fst (fl t q) v))). intros q Hq. rewrite (C q Hq).
    apply (derivable_pt_lim_scal (fun t => fq_N q k * fst (fl t q) v)). apply (derivable_pt_lim_scal (fun t => fst (fl t q) v)).
    set (W := fe_U nphi q x v + _). set (k2 := snd (edot _ _)).
    apply deriv_ext with (f := fun t => (fst (fl t q) v + ff_om (F t) * k2 * W) - ff_om (F t) * (k2 * W)).
    { exists 1. split; [lra|]. intros t _. ring. }
    replace (- ff_dom (F t0) * k2 * W) with (0 - (ff_dom (F t0) * (k2 * W) + ff_om (F t0) * 0)) by ring.
    apply (derivable_pt_lim_minus (fun t => fst (fl t q) v + ff_om (F t) * k2 * W) (fun t => ff_om (F t) * (k2 * W))).
    + apply deriv_ext with (f := fun t => fst (fl t0 q) v + ff_om (F t0) * k2 * W); [|apply derivable_pt_lim_const].
      exists 1. split; [lra|]. intros t _. unfold fl, wall_point, k2, W; cbn [fst snd]. destruct (Nat.eqb v (d + 1)); ring.
    + apply (prod_deriv (fun t => ff_om (F t)) (fun _ => k2 * W)); [exact HO|apply derivable_pt_lim_const].
  - apply deriv_ext with (f := fun t => lsumq (fun q => fq_w q * (fq_N q k * snd (fl t q) v)) qps).
    { exists 1. split; [lra|]. intros t _. destruct (E t) as [_ ->]. reflexivity. }
    rewrite S2. cbn [snd]. unfold ev0 at 1. rewrite Rplus_0_l.
    apply (lsum_deriv (fun q t => fq_w q * (fq_N q k * snd (fl t q) v))). intros q Hq. rewrite (C q Hq).
    apply (derivable_pt_lim_scal (fun t => fq_N q k * snd (fl t q) v)). apply (derivable_pt_lim_scal (fun t => snd (fl t q) v)).
    set (W := fe_U nphi q x v + _). set (k2 := fst (edot _ _)).
    apply deriv_ext with (f := fun t => (snd (fl t q) v - ff_om (F t) * k2 * W) + ff_om (F t) * (k2 * W)).
    { exists 1. split; [lra|]. intros t _. ring. }
    replace (ff_dom (F t0) * k2 * W) with (0 + (ff_dom (F t0) * (k2 * W) + ff_om (F t0) * 0)) by ring.
    apply (derivable_pt_lim_plus (fun t => snd (fl t q) v - ff_om (F t) * k2 * W) (fun t => ff_om (F t) * (k2 * W))).
    + apply deriv_ext with (f := fun t => snd (fl t0 q) v - ff_om (F t0) * k2 * W); [|apply derivable_pt_lim_const].
      exists 1. split; [lra|]. intros t _. unfold fl, wall_point, k2, W; cbn [fst snd]. destruct (Nat.eqb v (d + 1)); ring.
    + apply (prod_deriv (fun t => ff_om (F t)) (fun _ => k2 * W)); [exact HO|apply derivable_pt_lim_const].
Qed.
End Props.

(** Sides that do not move: the derivative, for an amplitude that depends on the parameter. *)
Lemma still_sens d cp cv nphi b om dom x zs sides : Forall no_wall sides -> forall a m s, over (fd_side_sens d cp cv nphi b dom x zs) sides a = Ok s ->
  over (fd_side d cp cv nphi b om false x zs) sides (a, m) = Ok (s, m).
Proof.
  induction 1 as [|sc l N _ IH]; intros a m s H; cbn [over] in *; [now injection H as ->|].
  unfold fd_side_sens at 1 in H. unfold fd_side at 1. unfold no_wall in N. destruct (snd sc); try contradiction.
  - destruct (still_matrix _ _ _ _ _ _ _) as [J|]; [|discriminate]. cbn [bind] in *. unfold add_still. cbn [fst snd]. apply IH. exact H.
  - destruct (still_matrix _ _ _ _ _ _ _) as [J|]; [|discriminate]. cbn [bind] in *. unfold add_still. cbn [fst snd]. apply IH. exact H.
  - cbn [bind] in *. apply IH. exact H.
  - discriminate.
Qed.
Theorem C234_sides : forall d cp cv nphi (F : R -> freqfn) (Z : R -> cvec) t0 zs sides x r s b m, Forall no_wall sides ->
  (forall t, ff_factor (F t) = Ok b) -> cderiv Z t0 zs ->
  (forall t, fd_sides d cp cv nphi (Some (F t)) false sides x (Z t) ((ev0, ev0), m) = Ok (r t, m)) ->
  fd_sides_sens d cp cv nphi (Some (F t0)) sides x zs (ev0, ev0) = Ok s -> cderiv r t0 s.
Proof.
  intros d cp cv nphi F Z t0 zs sides x r s b m N HB [HZ1 HZ2] HR HS.
  unfold fd_sides_sens in HS. rewrite HB in HS. cbn [bind] in HS. apply (still_sens _ _ _ _ _ (ff_om (F t0)) _ _ _ _ N _ m) in HS.
  destruct (still_inv _ _ _ _ _ _ _ _ _ _ N _ _ HS) as (Js & FJ & S1 & S2 & _).
  assert (E : forall t, (forall v k, fst (r t) v k = b * emul d nphi (fold_right em_add em0 Js) (fst (Z t)) v k) /\ (forall v k, snd (r t) v k = b * emul d nphi (fold_right em_add em0 Js) (snd (Z t)) v k)).
  { intros t. specialize (HR t). unfold fd_sides in HR. rewrite HB in HR. cbn [bind] in HR.
    destruct (still_inv _ _ _ _ _ _ _ _ _ _ N _ _ HR) as (Js' & FJ' & A1 & A2 & _).
    assert (EJ : Js' = Js).
    { clear - FJ FJ'. revert Js' FJ'. induction FJ as [|sc J l L HJ _ IH]; intros Js' FJ'; inversion FJ' as [|? J' ? L' HJ' FL']; subst; auto. f_equal; [|apply IH; auto].
      destruct (snd sc); try contradiction; try congruence. }
    subst Js'. cbn [fst snd] in A1, A2. unfold ev0 in A1, A2. split; intros v k; [rewrite A1|rewrite A2]; ring. }
  cbn [fst snd] in S1, S2. unfold ev0 in S1, S2. split; intros v k.
  - apply deriv_ext with (f := fun t => b * emul d nphi (fold_right em_add em0 Js) (fst (Z t)) v k).
    + exists 1. split; [lra|]. intros t _. destruct (E t) as [-> _]. reflexivity.
    + rewrite S1, Rplus_0_l. apply (derivable_pt_lim_scal (fun t => emul d nphi (fold_right em_add em0 Js) (fst (Z t)) v k)). apply emul_deriv. exact HZ1.
  - apply deriv_ext with (f := fun t => b * emul d nphi (fold_right em_add em0 Js) (snd (Z t)) v k).
    + exists 1. split; [lra|]. intros t _. destruct (E t) as [_ ->]. reflexivity.
    + rewrite S2, Rplus_0_l. apply (derivable_pt_lim_scal (fun t => emul d nphi (fold_right em_add em0 Js) (snd (Z t)) v k)). apply emul_deriv. exact HZ2.
Qed.

(** *** what goes wrong *)
Lemma EU : fe_U 1 qw xr = Ur.
Proof. apply functional_extensionality; intros i; cbv -[Rplus Rmult IZR]; destruct i as [|[|[|]]]; ring. Qed.
Lemma one_wall f bV b z m : ff_factor f = Ok bV -> (fs_dw b <> None -> fs_dn b <> None) ->
  exists r, fd_sides 1 2 1 1 (Some f) false [([qw], FdSlip b)] xr z ((ev0, ev0), m) = Ok (r, m) /\
    r = (add_vec 1 (fq_N qw) (fst (wall_point 1 2 1 bV (ff_om f) b qw Ur (prim_of 1 2 1 false Ur) (fe_U 1 qw (fst z), fe_U 1 qw (snd z)))) ev0,
         add_vec 1 (fq_N qw) (snd (wall_point 1 2 1 bV (ff_om f) b qw Ur (prim_of 1 2 1 false Ur) (fe_U 1 qw (fst z), fe_U 1 qw (snd z)))) ev0).
Proof.
  intros E N. unfold fd_sides. rewrite E. cbn [bind over]. unfold fd_side, wall_side, wall_step. cbn [fst snd over bind]. rewrite EU, Ur_ok. cbn [bind].
  destruct (fs_dw b), (fs_dn b); try (exfalso; apply N; congruence); eexists; split; reflexivity.
Qed.
Definition wallf (f : freqfn) (b : fslip) (z : cvec) (bV : R) : cvec :=
  (add_vec 1 (fq_N qw) (fst (wall_point 1 2 1 bV (ff_om f) b qw Ur (prim_of 1 2 1 false Ur) (fe_U 1 qw (fst z), fe_U 1 qw (snd z)))) ev0,
   add_vec 1 (fq_N qw) (snd (wall_point 1 2 1 bV (ff_om f) b qw Ur (prim_of 1 2 1 false Ur) (fe_U 1 qw (fst z), fe_U 1 qw (snd z)))) ev0).
Definition plain : fslip := mkFs None None None None None.
Definition ze : cvec := (fun v _ => match v with 2%nat => 1 | _ => 0 end, ev0).
Definition zt (t : R) : cvec := (fun v _ => match v with 2%nat => t | _ => 0 end, ev0).
(** The scale b / V of a reduced frequency depends on the parameter: ignored. *)
Theorem C234_factor_refuted : exists F b z qps x r s m, (forall t, t <> 0 -> fd_sides 1 2 1 1 (Some (F t)) false [(qps, FdSlip b)] x z ((ev0, ev0), m) = Ok (r t, m)) /\
  derivable_pt_lim (fun t => ff_om (F t)) 1 (ff_dom (F 1)) /\ b = mkFs None None None None None /\
  fd_sides_sens 1 2 1 1 (Some (F 1)) [(qps, FdSlip b)] x (ev0, ev0) (ev0, ev0) = Ok s /\ ~ cderiv r 1 s.
Proof.
  set (F := fun t => mkFq true 0 t 1 0).
  assert (EF : forall t, t <> 0 -> ff_factor (F t) = Ok (1 / t)) by (intros t T; unfold ff_factor, F; cbn; rewrite (proj2 (reqb_false t 0) T); reflexivity).
  eexists F, plain, ze, [qw], xr, (fun t => wallf (F t) plain ze (1 / t)), _, (em0, em0).
  split. { intros t T. destruct (one_wall (F t) (1 / t) plain ze (em0, em0) (EF t T) ltac:(intros X; exact X)) as (r & E & ->). exact E. }
  split; [cbn; apply derivable_pt_lim_const|]. split; [reflexivity|]. split.
  { unfold fd_sides_sens. rewrite (EF 1) by lra. cbn [bind over]. unfold fd_side_sens, wall_sens_side, wall_sens_step. cbn [fst snd over bind plain fs_disp fs_rot fs_dw fs_dn]. rewrite EU, Ur_ok. cbn [bind]. reflexivity. }
  intros [H _]. specialize (H 1%nat 0%nat).
  assert (W : derivable_pt_lim (fun t => / t) 1 0).
  { eapply deriv_ext; [|match goal with H : derivable_pt_lim _ 1 ?l |- _ => replace l with 0 in H; [exact H|] end].
    - exists 1. split; [lra|]. intros t T. cbv -[Rplus Rmult IZR Rdiv Rinv Rminus Ropp]. field. intros ->. rewrite Rabs_left in T by lra. lra.
    - cbv -[Rplus Rmult IZR Rdiv Rinv Rminus Ropp]. ring. }
  assert (W' : derivable_pt_lim (fun t => / t) 1 (- 1)).
  { replace (- 1) with ((0 * id 1 - 1 * fct_cte 1 1) / Rsqr (id 1)) by (unfold Rsqr, id, fct_cte; field).
    apply deriv_ext with (f := div_fct (fct_cte 1) id); [exists 1; split; [lra|]; intros t _; unfold div_fct, fct_cte, id, Rdiv; ring|].
    apply derivable_pt_lim_div; [apply derivable_pt_lim_const|apply derivable_pt_lim_id|unfold id; lra]. }
  pose proof (uniqueness_limite _ _ _ _ W W'). lra.
Qed.
(** The normal is turned and a velocity given, but no displacement: the turn is forgotten. *)
Definition spun : fslip := mkFs (Some (fun _ => vz)) (Some (fun _ => e1)) None (Some (fun _ => (e1, vz))) (Some (fun _ => (vz, vz))).
Theorem C234_rotation_refuted : exists F b z qps x r s m, (forall t, ff_factor (F t) = Ok 1) /\
  (forall t, fd_sides 1 2 1 1 (Some (F t)) false [(qps, FdSlip b)] x z ((ev0, ev0), m) = Ok (r t, m)) /\
  derivable_pt_lim (fun t => ff_om (F t)) 1 (ff_dom (F 1)) /\ fs_vel b <> None /\ fs_rot b <> None /\
  fd_sides_sens 1 2 1 1 (Some (F 1)) [(qps, FdSlip b)] x (ev0, ev0) (ev0, ev0) = Ok s /\ ~ cderiv r 1 s.
Proof.
  set (F := fun t => mkFq false t 1 1 1).
  eexists F, spun, (ev0, ev0), [qw], xr, (fun t => wallf (F t) spun (ev0, ev0) 1), _, (em0, em0).
  split; [reflexivity|].
  split. { intros t. destruct (one_wall (F t) 1 spun (ev0, ev0) (em0, em0) eq_refl ltac:(discriminate)) as (r & E & ->). exact E. }
  split; [cbn; apply derivable_pt_lim_id|]. split; [discriminate|]. split; [discriminate|]. split.
  { unfold fd_sides_sens. cbn [bind over F ff_factor ff_red]. unfold fd_side_sens, wall_sens_side, wall_sens_step. cbn [fst snd over bind spun fs_disp fs_rot fs_dw fs_dn]. rewrite EU, Ur_ok. cbn [bind]. reflexivity. }
  intros [_ H]. specialize (H 0%nat 0%nat).
  assert (W : derivable_pt_lim (fun t => 2 * t) 1 1).
  { eapply deriv_ext; [|match goal with H : derivable_pt_lim _ 1 ?l |- _ => replace l with 1 in H; [exact H|] end].
    - exists 1. split; [lra|]. intros t T. cbv -[Rplus Rmult IZR Rdiv Rinv Rminus Ropp]. field.
    - cbv -[Rplus Rmult IZR Rdiv Rinv Rminus Ropp]. ring. }
  assert (W' : derivable_pt_lim (fun t => 2 * t) 1 (2 * 1)) by (apply (derivable_pt_lim_scal id), derivable_pt_lim_id).
  pose proof (uniqueness_limite _ _ _ _ W W'). lra.
Qed.
(** The amplitude depends on the parameter: ignored at a wall. *)
Theorem C234_amplitude_refuted : exists f Z zs b qps x r s m, cderiv Z 1 zs /\
  (forall t, fd_sides 1 2 1 1 (Some f) false [(qps, FdSlip b)] x (Z t) ((ev0, ev0), m) = Ok (r t, m)) /\
  ff_dom f = 0 /\ fd_sides_sens 1 2 1 1 (Some f) [(qps, FdSlip b)] x zs (ev0, ev0) = Ok s /\ ~ cderiv r 1 s.
Proof.
  set (f := mkFq false 1 1 1 0).
  eexists f, zt, ze, plain, [qw], xr, (fun t => wallf f plain (zt t) 1), _, (em0, em0).
  split. { split; intros v k; cbn; [destruct v as [|[|[|]]]; try apply derivable_pt_lim_const; apply derivable_pt_lim_id|apply derivable_pt_lim_const]. }
  split. { intros t. destruct (one_wall f 1 plain (zt t) (em0, em0) eq_refl ltac:(intros X; exact X)) as (r & E & ->). exact E. }
  split; [reflexivity|]. split.
  { unfold fd_sides_sens. cbn [bind over f ff_factor ff_red]. unfold fd_side_sens, wall_sens_side, wall_sens_step. cbn [fst snd over bind plain fs_disp fs_rot fs_dw fs_dn]. rewrite EU, Ur_ok. cbn [bind]. reflexivity. }
  intros [H _]. specialize (H 1%nat 0%nat).
  assert (W : derivable_pt_lim (fun t => t) 1 0).
  { eapply deriv_ext; [|match goal with H : derivable_pt_lim _ 1 ?l |- _ => replace l with 0 in H; [exact H|] end].
    - exists 1. split; [lra|]. intros t T. cbv -[Rplus Rmult IZR Rdiv Rinv Rminus Ropp]. field.
    - cbv -[Rplus Rmult IZR Rdiv Rinv Rminus Ropp]. ring. }
  pose proof (uniqueness_limite _ _ _ _ W (derivable_pt_lim_id 1)). lra.
Qed.
(** A displacement with no rotation of the normal is refused, the steady one and the moving one. *)
Theorem C234_refused : forall d cp cv nphi f qps b h x zs acc s, 
  (fs_disp b = Some h /\ fs_rot b = None) \/ (fs_dw b <> None /\ fs_dn b = None) ->
  fd_sides_sens d cp cv nphi (Some f) [(qps, FdSlip b)] x zs acc <> Ok s.
Proof.
  intros d cp cv nphi f qps b h x zs acc s H. unfold fd_sides_sens. destruct (ff_factor f); cbn [bind]; [|discriminate].
  cbn [over]. unfold fd_side_sens, wall_sens_side. cbn [fst snd].
  destruct H as [[-> ->]|[H ->]]; [discriminate|]. destruct (fs_dw b); [|congruence]. destruct (fs_disp b), (fs_rot b); discriminate.
Qed.
(** No frequency, none sought. *)
Theorem C234_null : forall d cp cv nphi tau shock qps sides x z zs acc,
  fd_internal_sens d cp cv nphi None tau shock qps x z zs acc = Fault NullDeref /\ fd_sides_sens d cp cv nphi None sides x zs acc = Fault NullDeref.
Proof. intros; split; reflexivity. Qed.
(** A moving wall and a flow, a frequency that is the parameter itself. *)
Example C234_witness : let F := fun t => mkFq false t 1 1 1 in let b := mkFs None None None (Some (fun _ => (e1, e1))) (Some (fun _ => (vz, vz))) in
  (forall t, ff_factor (F t) = Ok 1) /\ derivable_pt_lim (fun t => ff_om (F t)) 2 (ff_dom (F 2)) /\
  (forall t, exists r, fd_sides 1 2 1 1 (Some (F t)) false [([qw], FdSlip b)] xr ziu ((ev0, ev0), (em0, em0)) = Ok (r, (em0, em0))) /\
  (forall t, exists r, fd_internal 1 2 1 1 (Some (F t)) false (fun _ _ => mx0) None [qw] xr (zt t) ((ev0, ev0), (em0, em0)) = Ok r) /\
  (exists s, fd_sides_sens 1 2 1 1 (Some (F 2)) [([qw], FdSlip b)] xr (ev0, ev0) (ev0, ev0) = Ok s) /\ cderiv zt 2 ze.
Proof.
  cbv zeta. split; [reflexivity|]. split; [cbn; apply derivable_pt_lim_id|]. split; [|split; [|split]].
  - intros t. destruct (one_wall (mkFq false t 1 1 1) 1 (mkFs None None None (Some (fun _ => (e1, e1))) (Some (fun _ => (vz, vz)))) ziu (em0, em0) eq_refl ltac:(discriminate)) as (r & E & _). eauto.
  - intros t. apply (C232_runs 1 2 1 1 _ 1); [left; reflexivity|lra|reflexivity|apply xr_phys].
  - unfold fd_sides_sens. cbn [bind over ff_factor ff_red]. unfold fd_side_sens, wall_sens_side, wall_sens_step. cbn [fst snd over bind fs_disp fs_rot fs_dw fs_dn]. rewrite EU, Ur_ok. cbn [bind]. eauto.
  - split; intros v k; cbn; [destruct v as [|[|[|]]]; try apply derivable_pt_lim_const; apply derivable_pt_lim_id|apply derivable_pt_lim_const].
Qed.
Print Assumptions C234_interior_partial.
Print Assumptions C234_wall_partial.
Print Assumptions C234_sides.
Print Assumptions C234_factor_refuted.
Print Assumptions C234_rotation_refuted.
Print Assumptions C234_amplitude_refuted.
Print Assumptions C234_refused.
Print Assumptions C234_null.
