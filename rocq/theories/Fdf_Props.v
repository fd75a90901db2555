(** C232-C233: harmonic small motions of a flow. *)
From Coq Require Import List Arith Bool Lia Reals Lra FunctionalExtensionality.
From Verif Require Import Base BaseLemmas RBool Stre_Proofs Stre_Proofs2 Flui_Model Flui_Spec Flui_Proofs Flui_Proofs2 Flui_Props Cfe_Model Cfe_Spec Cfe_Proofs Cfe_Proofs2 Fdf_Model Fdf_Spec Fdf_Proofs Fdf_Proofs2.
Import ListNotations.
Open Scope R_scope.

Section Props.
Variables (d : nat) (cp cv : R) (nphi : nat).
Notation mul := (emul d nphi).
Notation inside := (fd_internal d cp cv nphi).

(** ** C232 *)
(** The element adds (b K + i om M) z, with K and M the matrices the steady element gives for the state and for its rate. *)
Theorem C232_interior : forall f asked tau shock qps x z acc r, inside (Some f) asked tau shock qps x z acc = Ok r ->
  exists b fK K fM M M', ff_factor f = Ok b /\ internal_residual d cp cv nphi tau shock qps x = Ok (fK, K) /\
    velocity_residual d cp cv nphi tau qps x ev0 = Ok (fM, M, M') /\
    (forall v k, fst (fst r) v k = fst (fst acc) v k + (b * mul K (fst z) v k - ff_om f * mul M (snd z) v k)) /\
    (forall v k, snd (fst r) v k = snd (fst acc) v k + (b * mul K (snd z) v k + ff_om f * mul M (fst z) v k)) /\
    (forall v k v' k', fst (snd r) v k v' k' = fst (snd acc) v k v' k' + (if asked then b * K v k v' k' else 0)) /\
    (forall v k v' k', snd (snd r) v k v' k' = snd (snd acc) v k v' k' + (if asked then ff_om f * M v k v' k' else 0)).
Proof.
  intros f asked tau shock qps x z acc r H.
  destruct (fd_internal_inv d cp cv nphi _ _ _ _ _ _ _ _ _ H) as (f' & b & fK & K & fM & M & M' & Ef & Eb & EK & EM & ->).
  injection Ef as <-. assert (M' = em0) by (eapply rate_frozen; eauto). subst M'. rewrite em_add_0.
  exists b, fK, K, fM, M, em0. repeat split; auto; intros; cbn [fst snd c_add ev_add cmul].
  - unfold ev_add. rewrite !emul_scale. reflexivity.
  - unfold ev_add. rewrite !emul_scale. reflexivity.
  - destruct asked; cbn; unfold em_add, em_scale; ring.
  - destruct asked; cbn; unfold em_add, em_scale; ring.
Qed.
(** In time: if the state moves as the real part of z e^(i om t), the real part of the result times e^(i om t) is, at each time,
    b K (motion) + M (velocity of the motion). *)
Theorem C232_harmonic : forall f asked tau shock qps x z m r, inside (Some f) asked tau shock qps x z ((ev0, ev0), m) = Ok r ->
  exists b fK K fM M M', ff_factor f = Ok b /\ internal_residual d cp cv nphi tau shock qps x = Ok (fK, K) /\
    velocity_residual d cp cv nphi tau qps x ev0 = Ok (fM, M, M') /\
    forall t xd, (forall v k, derivable_pt_lim (fun t => moving_at z (ff_om f * t) v k) t (xd v k)) ->
      forall v k, moving_at (fst r) (ff_om f * t) v k = b * mul K (moving_at z (ff_om f * t)) v k + mul M xd v k.
Proof.
  intros f asked tau shock qps x z m r H.
  destruct (fd_internal_inv d cp cv nphi _ _ _ _ _ _ _ _ _ H) as (f' & b & fK & K & fM & M & M' & Ef & Eb & EK & EM & ->).
  injection Ef as <-. assert (M' = em0) by (eapply rate_frozen; eauto). subst M'. rewrite em_add_0.
  exists b, fK, K, fM, M, em0. repeat split; auto. intros t xd Hx v k.
  transitivity (b * mul K (moving_at z (ff_om f * t)) v k + mul M (fun i j => - ff_om f * (fst z i j * sin (ff_om f * t) + snd z i j * cos (ff_om f * t))) v k).
  - rewrite <- phase_product. unfold moving_at. cbn [fst c_add]. unfold c_add, ev_add, ev0; cbn [fst snd]. f_equal; ring.
  - f_equal. apply emul_ext. intros i j. eapply uniqueness_limite; [|apply Hx]. apply phase_rate.
Qed.
(** A reduced frequency k (per length b and speed V) asks the same motion as the frequency k V / b. *)
Theorem C232_reduced : forall k V b o g tau shock qps x z m r m' r', V <> 0 -> b <> 0 ->
  inside (Some (mkFq true k V b o)) false tau shock qps x z ((ev0, ev0), m) = Ok r ->
  inside (Some (mkFq false (k * V / b) V b g)) false tau shock qps x z ((ev0, ev0), m') = Ok r' ->
  forall v a, fst (fst r) v a = b / V * fst (fst r') v a /\ snd (fst r) v a = b / V * snd (fst r') v a.
Proof.
  intros k V b o g tau shock qps x z m r m' r' HV Hb H H' v a.
  destruct (C232_interior _ _ _ _ _ _ _ _ _ H) as (c & fK & K & fM & M & M' & Ec & EK & EM & A1 & A2 & _).
  destruct (C232_interior _ _ _ _ _ _ _ _ _ H') as (c' & fK' & K' & fM' & N & N' & Ec' & EK' & EM' & B1 & B2 & _).
  rewrite EK in EK'. injection EK' as <- <-. rewrite EM in EM'. injection EM' as <- <- <-.
  unfold ff_factor in Ec, Ec'; cbn in Ec, Ec'. rewrite (proj2 (reqb_false V 0) HV) in Ec. injection Ec as <-. injection Ec' as <-.
  rewrite A1, A2, B1, B2. cbn. unfold ev0. split; field; auto.
Qed.
(** Sides that do not move add b times the steady matrix of the side, symmetry walls and far fields alike. *)
Theorem C232_sides : forall f asked sides x z acc r, Forall no_wall sides -> fd_sides d cp cv nphi (Some f) asked sides x z acc = Ok r ->
  exists b Js, ff_factor f = Ok b /\
    Forall2 (fun sc J => match snd sc with FdDirichlet => J = em0
      | FdSymmetry => exists g, side_step d cp cv nphi x (fst sc, SymmetryWall) (ev0, em0) = Ok (g, J)
      | FdFar inf => exists g, side_step d cp cv nphi x (fst sc, FarField inf) (ev0, em0) = Ok (g, J) | _ => False end) sides Js /\
    (forall v k, fst (fst r) v k = fst (fst acc) v k + b * mul (fold_right em_add em0 Js) (fst z) v k) /\
    (forall v k, snd (fst r) v k = snd (fst acc) v k + b * mul (fold_right em_add em0 Js) (snd z) v k) /\
    (forall v k v' k', fst (snd r) v k v' k' = fst (snd acc) v k v' k' + (if asked then b * fold_right em_add em0 Js v k v' k' else 0)) /\
    (forall v k v' k', snd (snd r) v k v' k' = snd (snd acc) v k v' k').
Proof.
  intros f asked sides x z acc r F H. unfold fd_sides in H. destruct (ff_factor f) as [b|]; [|discriminate]. cbn [bind] in H.
  destruct (still_inv d cp cv nphi b (ff_om f) asked x z sides F acc r H) as (Js & A & A1 & A2 & A3 & A4).
  exists b, Js. repeat split; auto.
  clear - A. induction A as [|sc J l L HJ _ IH]; constructor; auto.
  destruct (snd sc); auto; unfold still_matrix in HJ;
  destruct (side_step _ _ _ _ _ _ _) as [[g j]|]; try discriminate; cbn in HJ; injection HJ as <-; eauto.
Qed.
(** What is missing is refused: no frequency, no speed, a condition that is not known. *)
Theorem C232_refused : forall asked tau shock qps x z acc sides,
  inside None asked tau shock qps x z acc = Fault NullDeref /\ fd_sides d cp cv nphi None asked sides x z acc = Fault NullDeref /\
  (forall k b o, inside (Some (mkFq true k 0 b o)) asked tau shock qps x z acc = Fault DivByZero /\
                 fd_sides d cp cv nphi (Some (mkFq true k 0 b o)) asked sides x z acc = Fault DivByZero) /\
  (forall f r, In FdOther (map snd sides) -> fd_sides d cp cv nphi (Some f) asked sides x z acc <> Ok r).
Proof.
  intros asked tau shock qps x z acc sides. split; [reflexivity|]. split; [reflexivity|]. split.
  - intros. unfold fd_internal, fd_sides, ff_factor; cbn. rewrite (proj2 (reqb_true 0 0) eq_refl). cbn. auto.
  - intros f r HI. unfold fd_sides. destruct (ff_factor f) as [b|]; cbn [bind]; [|discriminate].
    revert acc. induction sides as [|sc l IH]; intros acc; [destruct HI|]. cbn [over].
    cbn [map] in HI. destruct HI as [E|HI].
    + unfold fd_side at 1. rewrite E. discriminate.
    + destruct (fd_side _ _ _ _ _ _ _ _ _ sc acc); cbn [bind]; [apply IH; auto|discriminate].
Qed.

(** ** C233 *)
(** A wall that moves in phase: at each phase, the real part of the flux times e^(ip) is the first-order change of the flux through the
    wall when wall velocity, normal and state move by that much. *)
Theorem C233_wall_partial : forall bV om b q U s (dU : v3), valid_dim d -> 0 < cv < cp -> prim_init d cp cv false U = Ok s ->
  (forall i, (i < 3)%nat -> snd (wall_dw b q) i = 0) ->
  (forall i, (i < 3)%nat -> at_pt (fs_rot b) q i = 0) \/ (forall i, snd dU i = 0) ->
  forall v p, (v < d + 2)%nat ->
  derivable_pt_lim (fun e => moving_flux d bV (pad d (fq_n q)) (at_pt (fs_vel b) q) (fun i => e * swing om (wall_dw b q) p i)
      (fun i => at_pt (fs_rot b) q i + e * turned (wall_dn b q) p i)
      (prim_of d cp cv false (fun i => U i + e * turned dU p i)) (fun i => U i + e * turned dU p i) v) 0
    (at_phase (fst (wall_point d cp cv bV om b q U s dU) v) (snd (wall_point d cp cv bV om b q U s dU) v) p).
Proof.
  intros bV om b q U s dU D G HI HW HR v p Hv.
  pose proof (wall_rate d cp cv bV om b q U s dU p v D G HI Hv) as W.
  replace (phase_error d cp cv bV om b q s dU p) with 0 in W.
  - replace (at_phase _ _ p + _) with (at_phase (fst (wall_point d cp cv bV om b q U s dU) v) (snd (wall_point d cp cv bV om b q U s dU) v) p) in W by ring.
    eapply deriv_ext; [|exact W]. exists 1. split; [lra|]. intros t _. f_equal. apply functional_extensionality; intros i. ring.
  - unfold phase_error.
    assert (Z : dot3 (snd (wall_dw b q)) (vplus (pad d (fq_n q)) (at_pt (fs_rot b) q)) = 0) by (unfold dot3; cbn; rewrite !HW by lia; ring).
    assert (Y : dot3 (duvec d (pert_of d cp cv false s (snd dU))) (at_pt (fs_rot b) q) = 0).
    { destruct HR as [HR|HR]; [unfold dot3; cbn; rewrite !HR by lia; ring|].
      assert (E : snd dU = vz) by (apply functional_extensionality; intros; apply HR). rewrite E.
      destruct (pert_zero d cp cv s D) as [_ D0]. unfold dot3; cbn [sum]. rewrite !D0. ring. }
    rewrite Z, Y. ring.
Qed.
(** In general the flux misses the change by this: the imaginary part of the wall's displacement, and that of the velocity along the
    turned normal, enter with the wrong sign. *)
Theorem C233_error : forall bV om b q U s (dU : v3), valid_dim d -> 0 < cv < cp -> prim_init d cp cv false U = Ok s -> forall v p, (v < d + 2)%nat ->
  derivable_pt_lim (fun e => moving_flux d bV (pad d (fq_n q)) (at_pt (fs_vel b) q) (fun i => e * swing om (wall_dw b q) p i)
      (fun i => at_pt (fs_rot b) q i + e * turned (wall_dn b q) p i)
      (prim_of d cp cv false (fun i => U i + e * turned dU p i)) (fun i => U i + e * turned dU p i) v) 0
    (at_phase (fst (wall_point d cp cv bV om b q U s dU) v) (snd (wall_point d cp cv bV om b q U s dU) v) p +
     (- 2 * om * dot3 (snd (wall_dw b q)) (vplus (pad d (fq_n q)) (at_pt (fs_rot b) q)) * cos p +
        2 * bV * dot3 (duvec d (pert_of d cp cv false s (snd dU))) (at_pt (fs_rot b) q) * sin p) * (U v + if Nat.eqb v (d + 1) then p_p s else 0)).
Proof.
  intros bV om b q U s dU D G HI v p Hv. pose proof (wall_rate d cp cv bV om b q U s dU p v D G HI Hv) as W.
  eapply deriv_ext; [|exact W]. exists 1. split; [lra|]. intros t _. f_equal. apply functional_extensionality; intros i. ring.
Qed.
(** A side adds, point by point, weight times shape function times flux. *)
Theorem C233_side : forall f asked qps b x z acc r, 0 < cv < cp -> fd_sides d cp cv nphi (Some f) asked [(qps, FdSlip b)] x z acc = Ok r ->
  exists bV, ff_factor f = Ok bV /\ (fs_dw b <> None -> fs_dn b <> None) /\
  let fl q := wall_point d cp cv bV (ff_om f) b q (fe_U nphi q x) (prim_of d cp cv false (fe_U nphi q x)) (fe_U nphi q (fst z), fe_U nphi q (snd z)) in
  (forall q, In q qps -> prim_init d cp cv false (fe_U nphi q x) = Ok (prim_of d cp cv false (fe_U nphi q x))) /\
  (forall v a, fst (fst r) v a = fst (fst acc) v a + fold_right Rplus 0 (map (fun q => fq_w q * (fq_N q a * fst (fl q) v)) qps)) /\
  (forall v a, snd (fst r) v a = snd (fst acc) v a + fold_right Rplus 0 (map (fun q => fq_w q * (fq_N q a * snd (fl q) v)) qps)) /\
  (asked = false -> snd r = snd acc).
Proof.
  intros f asked qps b x z acc r G H. unfold fd_sides in H. destruct (ff_factor f) as [bV|]; [|discriminate]. cbn [bind over] in H.
  destruct (fd_side _ _ _ _ _ _ _ _ _ _ acc) as [r'|] eqn:E; [|discriminate]. cbn [bind] in H. injection H as ->.
  unfold fd_side in E. cbn [fst snd] in E. unfold wall_side in E.
  exists bV. split; [reflexivity|].
  assert (NN : fs_dw b <> None -> fs_dn b <> None) by (destruct (fs_dw b), (fs_dn b); congruence).
  assert (E' : over (wall_step d cp cv nphi bV (ff_om f) asked b x z) qps acc = Ok r) by (destruct (fs_dw b), (fs_dn b); auto; discriminate).
  destruct (wall_over d cp cv nphi bV (ff_om f) asked b x z qps G acc r E') as (F & A1 & A2 & A3 & A4 & A5).
  split; [exact NN|]. cbv zeta. split; [|split; [exact A1|split; [exact A2|]]].
  - rewrite Forall_forall in F. exact F.
  - intros NA. destruct r as [r1 [r2 r3]], acc as [a1 [a2 a3]]. cbn in *. now rewrite A4, A5 by auto.
Qed.
Lemma lsum_ext g h (l : list fpt) : (forall q, In q l -> g q = h q) -> lsumq g l = lsumq h l.
Proof. intros H. unfold lsumq. rewrite (map_ext_in _ _ _ H). reflexivity. Qed.
Lemma lsum_plus g h (l : list fpt) : lsumq (fun q => g q + h q) l = lsumq g l + lsumq h l.
Proof. unfold lsumq. induction l as [|q l IH]; cbn; [ring|]. rewrite IH. ring. Qed.
Lemma lsum_emul (g : fpt -> emat) l z v k : mul (fun v k v' k' => lsumq (fun q => g q v k v' k') l) z v k = lsumq (fun q => mul (g q) z v k) l.
Proof.
  unfold lsumq, emul. induction l as [|q l IH]; cbn [map fold_right].
  - rewrite sum_0; auto. intros i _. rewrite sum_0; auto. intros; ring.
  - rewrite <- IH, <- sum_plus. apply sum_ext; intros i _. rewrite <- sum_plus. apply sum_ext; intros; ring.
Qed.
Lemma pt_mul c q (J : mx) z v k : mul (fun v k v' k' => fq_w q * c * (fq_N q k * J v v' * fq_N q k')) z v k = fq_w q * (fq_N q k * (c * mvec (2 + d) J (fe_U nphi q z) v)).
Proof.
  unfold emul, mvec, fe_U. replace (nun d) with (2 + d)%nat by (unfold nun; lia). rewrite <- !sum_scal_l. apply sum_ext; intros i _. rewrite <- !sum_scal_l. apply sum_ext; intros; ring.
Qed.
(** The matrix of a wall is what multiplies the state in the flux, for a normal that the base motion does not turn. *)
Theorem C233_matrix_partial : forall f qps b x z acc acc0 r r0, valid_dim d -> 0 < cv < cp ->
  (forall q i, In q qps -> (i < 3)%nat -> at_pt (fs_rot b) q i = 0) ->
  acc = ((ev0, ev0), (em0, em0)) -> acc0 = acc ->
  fd_sides d cp cv nphi (Some f) true [(qps, FdSlip b)] x z acc = Ok r ->
  fd_sides d cp cv nphi (Some f) true [(qps, FdSlip b)] x (ev0, ev0) acc0 = Ok r0 ->
  snd r0 = snd r /\ snd (snd r) = em0 /\
  (forall v k, (v < d + 2)%nat -> fst (fst r) v k = fst (fst r0) v k + mul (fst (snd r)) (fst z) v k) /\
  (forall v k, (v < d + 2)%nat -> snd (fst r) v k = snd (fst r0) v k + mul (fst (snd r)) (snd z) v k).
Proof.
  intros f qps b x z acc acc0 r r0 D G HR EA EA0 H H0. subst acc0.
  assert (Q : forall z r, fd_sides d cp cv nphi (Some f) true [(qps, FdSlip b)] x z acc = Ok r -> exists bV, ff_factor f = Ok bV /\ over (wall_step d cp cv nphi bV (ff_om f) true b x z) qps acc = Ok r).
  { intros z' r' H'. unfold fd_sides in H'. destruct (ff_factor f) as [bV|]; [|discriminate]. cbn [bind over] in H'.
    destruct (fd_side _ _ _ _ _ _ _ _ _ _ acc) as [r''|] eqn:E; [|discriminate]. cbn [bind] in H'. injection H' as ->.
    unfold fd_side in E. cbn [fst snd] in E. unfold wall_side in E. exists bV. split; auto. destruct (fs_dw b), (fs_dn b); auto; discriminate. }
  destruct (Q _ _ H) as (bV & EB & E). destruct (Q _ _ H0) as (bV' & EB' & E0). rewrite EB in EB'. injection EB' as <-.
  destruct (wall_over d cp cv nphi bV (ff_om f) true b x z qps G acc r E) as (F & A1 & A2 & A3 & _ & A5).
  destruct (wall_over d cp cv nphi bV (ff_om f) true b x (ev0, ev0) qps G acc r0 E0) as (_ & B1 & B2 & B3 & _ & B5).
  specialize (A3 eq_refl). specialize (B3 eq_refl). rewrite Forall_forall in F.
  assert (Z0 : forall q, fe_U nphi q ev0 = vz) by (intros q; apply functional_extensionality; intros i; unfold fe_U, ev0, vz; apply sum_0; intros; ring).
  assert (J0 : fst (snd r) = fun v k v' k' => lsumq (fun q => fq_w q * bV * (fq_N q k * (match wall_jac d (cp - cv) cv (state_of_pt d cp cv nphi x q) (wall_speed0 d b q (state_of_pt d cp cv nphi x q)) (fq_n q) (at_pt (fs_rot b) q) with Ok J => J v v' | _ => 0 end) * fq_N q k')) qps).
  { apply functional_extensionality; intros v; apply functional_extensionality; intros k; apply functional_extensionality; intros v'; apply functional_extensionality; intros k'.
    rewrite A3, EA. cbn. unfold em0. ring. }
  assert (JJ : forall y v k, (v < d + 2)%nat -> mul (fst (snd r)) y v k = lsumq (fun q => fq_w q * (fq_N q k * fst (wall_point d cp cv bV (ff_om f) (still b) q (fe_U nphi q x) (state_of_pt d cp cv nphi x q) (fe_U nphi q y, vz)) v)) qps).
  { intros y v k Hv. rewrite J0.
    rewrite (lsum_emul (fun q v k v' k' => fq_w q * bV * (fq_N q k * (match wall_jac d (cp - cv) cv (state_of_pt d cp cv nphi x q) (wall_speed0 d b q (state_of_pt d cp cv nphi x q)) (fq_n q) (at_pt (fs_rot b) q) with Ok J => J v v' | _ => 0 end) * fq_N q k')) qps y v k).
    apply lsum_ext. intros q Hq.
    destruct (wall_matrix_real d cp cv bV (ff_om f) b q (fe_U nphi q x) (state_of_pt d cp cv nphi x q) (fe_U nphi q y) v D G (F q Hq) ltac:(lia)) as (J & EJ & ->).
    rewrite EJ. apply (pt_mul bV q J y v k). }
  split; [|split; [|split]].
  - destruct r as [r1 [r2 r3]], r0 as [s1 [s2 s3]]. cbn [fst snd] in *. f_equal; [|rewrite A5, B5; reflexivity].
    apply functional_extensionality; intros v; apply functional_extensionality; intros k; apply functional_extensionality; intros v'; apply functional_extensionality; intros k'.
    rewrite A3, B3. reflexivity.
  - rewrite A5, EA. reflexivity.
  - intros v k Hv. rewrite JJ, A1, B1 by auto. rewrite Rplus_assoc. f_equal.
    rewrite <- lsum_plus. apply lsum_ext. intros q Hq. cbn [fst snd]. rewrite Z0.
    destruct (wall_split d cp cv bV (ff_om f) b q (fe_U nphi q x) (state_of_pt d cp cv nphi x q) (fe_U nphi q (fst z), fe_U nphi q (snd z)) v D) as [-> _].
    cbn [fst snd]. ring.
  - intros v k Hv. rewrite JJ, A2, B2 by auto. rewrite Rplus_assoc. f_equal.
    rewrite <- lsum_plus. apply lsum_ext. intros q Hq. cbn [fst snd]. rewrite Z0.
    destruct (wall_split d cp cv bV (ff_om f) b q (fe_U nphi q x) (state_of_pt d cp cv nphi x q) (fe_U nphi q (fst z), fe_U nphi q (snd z)) v D) as [_ ->].
    cbn [fst snd].
    replace (dot3 (duvec d (pert_of d cp cv false (state_of_pt d cp cv nphi x q) (fe_U nphi q (snd z)))) (at_pt (fs_rot b) q)) with 0 by (unfold dot3; cbn [sum]; rewrite !(HR q) by (auto; lia); ring).
    ring.
Qed.
(** A displacement of the wall without the rotation of its normal is refused, on any side. *)
Theorem C233_refused : forall f asked qps b h rest x z acc r, fs_dw b = Some h -> fs_dn b = None ->
  fd_sides d cp cv nphi (Some f) asked ((qps, FdSlip b) :: rest) x z acc <> Ok r.
Proof.
  intros f asked qps b h rest x z acc r Hw Hn. unfold fd_sides. destruct (ff_factor f); cbn [bind]; [|discriminate].
  cbn [over]. unfold fd_side, wall_side. cbn [fst snd]. rewrite Hw, Hn. discriminate.
Qed.
End Props.

(** *** examples: one dimension, cp = 2, cv = 1, gas at rest *)
Definition Ur : vec := fun v => match v with 0%nat => 1 | 2%nat => 1 | _ => 0 end.
Definition qw : fpt := mkFpt 1 (fun _ => 1) (fun _ _ => 0) (fun i => match i with 0%nat => 1 | _ => 0 end) (fun _ => 0).
Definition e1 : vec := fun i => match i with 0%nat => 1 | _ => 0 end.
Definition xr : evec := fun v _ => Ur v.
Definition imw : fslip := mkFs None None None (Some (fun _ => (vz, e1))) (Some (fun _ => (vz, vz))).
Definition rew : fslip := mkFs None None None (Some (fun _ => (e1, vz))) (Some (fun _ => (vz, e1))).
Lemma Ur_ok : prim_init 1 2 1 false Ur = Ok (prim_of 1 2 1 false Ur).
Proof. apply prim_init_good; cbn; lra. Qed.
(** The displacement i e^(i om t) of a wall gives the flux of the displacement -i e^(i om t). *)
Theorem C233_conjugate_refuted : exists bV om b q U s (dU : v3) v p, (v < 3)%nat /\ prim_init 1 2 1 false U = Ok s /\ fs_rot b = None /\ fs_dn b <> None /\
  ~ derivable_pt_lim (fun e => moving_flux 1 bV (pad 1 (fq_n q)) (at_pt (fs_vel b) q) (fun i => e * swing om (wall_dw b q) p i)
      (fun i => at_pt (fs_rot b) q i + e * turned (wall_dn b q) p i)
      (prim_of 1 2 1 false (fun i => U i + e * turned dU p i)) (fun i => U i + e * turned dU p i) v) 0
    (at_phase (fst (wall_point 1 2 1 bV om b q U s dU) v) (snd (wall_point 1 2 1 bV om b q U s dU) v) p).
Proof.
  exists 1, 1, imw, qw, Ur, (prim_of 1 2 1 false Ur), (vz, vz), 0%nat, 0.
  split; [lia|]. split; [apply Ur_ok|]. split; [reflexivity|]. split; [discriminate|]. intros H.
  pose proof (C233_error 1 2 1 1 1 imw qw Ur (prim_of 1 2 1 false Ur) (vz, vz) (or_introl eq_refl) ltac:(lra) Ur_ok 0%nat 0 ltac:(lia)) as W.
  pose proof (uniqueness_limite _ _ _ _ H W) as E.
  replace (dot3 (snd (wall_dw imw qw)) (vplus (pad 1 (fq_n qw)) (at_pt (fs_rot imw) qw))) with 1 in E by (cbv -[Rplus Rmult IZR]; ring).
  rewrite cos_0, sin_0 in E. cbn [Ur Nat.eqb Nat.add] in E. lra.
Qed.
(** With a turned normal the matrix is not what multiplies a complex state: the velocity of the perturbation enters conjugated. *)
Definition tilt : fslip := mkFs None (Some (fun _ => e1)) None None None.
Definition ziu : cvec := (ev0, fun v _ => match v with 1%nat => 1 | _ => 0 end).
Theorem C233_turned_refuted : exists f qps b x z r r0, 
  fd_sides 1 2 1 1 (Some f) true [(qps, FdSlip b)] x z ((ev0, ev0), (em0, em0)) = Ok r /\
  fd_sides 1 2 1 1 (Some f) true [(qps, FdSlip b)] x (ev0, ev0) ((ev0, ev0), (em0, em0)) = Ok r0 /\
  snd (fst r) 0%nat 0%nat <> snd (fst r0) 0%nat 0%nat + emul 1 1 (fst (snd r)) (snd z) 0%nat 0%nat.
Proof.
  assert (EU : fe_U 1 qw xr = Ur) by (apply functional_extensionality; intros i; cbv -[Rplus Rmult IZR]; destruct i as [|[|[|]]]; ring).
  destruct (wall_matrix_real 1 2 1 1 1 tilt qw Ur (prim_of 1 2 1 false Ur) (fe_U 1 qw (snd ziu)) 0%nat (or_introl eq_refl) ltac:(lra) Ur_ok ltac:(lia)) as (J & EJ & HJ).
  assert (Q : forall z, exists r, fd_sides 1 2 1 1 (Some (mkFq false 1 1 1 0)) true [([qw], FdSlip tilt)] xr z ((ev0, ev0), (em0, em0)) = Ok r /\
    snd (fst r) 0%nat 0%nat = snd (wall_point 1 2 1 1 1 tilt qw Ur (prim_of 1 2 1 false Ur) (fe_U 1 qw (fst z), fe_U 1 qw (snd z))) 0%nat /\
    emul 1 1 (fst (snd r)) (snd ziu) 0%nat 0%nat = mvec 3 J (fe_U 1 qw (snd ziu)) 0%nat).
  { intros z. unfold fd_sides, ff_factor, fd_side, wall_side, wall_step. cbn [bind over fst snd ff_red ff_om tilt fs_dw fs_dn]. rewrite EU, Ur_ok. cbn [bind]. fold tilt. rewrite EJ. cbn [bind].
    eexists. split; [reflexivity|]. cbn [fst snd]. split; [unfold add_vec, ev0; cbn [fq_w fq_N qw]; ring|].
    unfold add_mat, emul, mvec, fe_U, em0. cbn [sum fq_w fq_N qw]. cbn. ring. }
  destruct (Q ziu) as (r & E1 & A1 & B1). destruct (Q (ev0, ev0)) as (r0 & E0 & A0 & _).
  exists (mkFq false 1 1 1 0), [qw], tilt, xr, ziu, r, r0. split; [exact E1|]. split; [exact E0|].
  rewrite A1, A0, B1.
  destruct (wall_split 1 2 1 1 1 tilt qw Ur (prim_of 1 2 1 false Ur) (fe_U 1 qw (fst ziu), fe_U 1 qw (snd ziu)) 0%nat (or_introl eq_refl)) as [_ ->].
  cbn [fst snd] in *. change (2 + 1)%nat with 3%nat in HJ. rewrite HJ.
  assert (Z0 : fe_U 1 qw ev0 = vz) by (apply functional_extensionality; intros i; unfold fe_U, ev0, vz; cbn; ring). rewrite Z0.
  replace (dot3 (duvec 1 (pert_of 1 2 1 false (prim_of 1 2 1 false Ur) (fe_U 1 qw (snd ziu)))) (at_pt (fs_rot tilt) qw)) with 1 by (cbv -[Rplus Rmult IZR Rdiv Rinv Rminus]; field).
  cbn [Ur Nat.eqb Nat.add]. lra.
Qed.

(** With a frequency, and a gas that is physical at the points, the interior runs. *)
Theorem C232_runs : forall d cp cv nphi f b asked tau shock qps x z acc, valid_dim d -> 0 < cv < cp -> ff_factor f = Ok b ->
  physical d cp cv nphi x qps -> exists r, fd_internal d cp cv nphi (Some f) asked tau shock qps x z acc = Ok r.
Proof.
  intros d cp cv nphi f b asked tau shock qps x z acc D G EB P.
  destruct (internal_runs d cp cv nphi D G tau shock qps x P) as (fK & K & EK).
  assert (Q : forall a, exists a', over (vel_step d cp cv nphi tau x ev0) qps a = Ok a').
  { clear EK z acc. revert P. generalize qps as l. induction l as [|q l IH]; intros P a; [exists a; reflexivity|]. cbn [over].
    destruct (vel_step_ok d cp cv nphi D tau x ev0 q a) as (f1 & j1 & E1 & _).
    - apply good_iff; auto. apply P. left; auto.
    - rewrite E1. cbn [bind]. apply IH. intros q' H'. apply P. right; auto. }
  destruct (Q (ev0, em0)) as ([f2 j2] & E2).
  unfold fd_internal. rewrite EB. cbn [bind]. unfold fd_matrices. rewrite EK. cbn [bind]. unfold velocity_residual. rewrite E2. cbn [bind]. eauto.
Qed.
Lemma xr_phys : physical 1 2 1 1 xr [qw].
Proof. intros p Hp. destruct Hp as [<-|[]]. unfold state_at, fe_U, xr, Ur, qw; cbn. lra. Qed.
Example C232_witness : exists r r', fd_internal 1 2 1 1 (Some (mkFq true 1 2 3 0)) false (fun _ _ => mx0) None [qw] xr ziu ((ev0, ev0), (em0, em0)) = Ok r /\
  fd_internal 1 2 1 1 (Some (mkFq false (1 * 2 / 3) 2 3 0)) false (fun _ _ => mx0) None [qw] xr ziu ((ev0, ev0), (em0, em0)) = Ok r'.
Proof.
  assert (E : ff_factor (mkFq true 1 2 3 0) = Ok (3 / 2)) by (unfold ff_factor; cbn; rewrite (proj2 (reqb_false 2 0) ltac:(lra)); reflexivity).
  destruct (C232_runs 1 2 1 1 (mkFq true 1 2 3 0) (3 / 2) false (fun _ _ => mx0) None [qw] xr ziu ((ev0, ev0), (em0, em0)) (or_introl eq_refl) ltac:(lra) E xr_phys) as [r E1].
  destruct (C232_runs 1 2 1 1 (mkFq false (1 * 2 / 3) 2 3 0) 1 false (fun _ _ => mx0) None [qw] xr ziu ((ev0, ev0), (em0, em0)) (or_introl eq_refl) ltac:(lra) eq_refl xr_phys) as [r' E2].
  eauto.
Qed.
(** A wall moving in phase, whose normal turns out of phase, over a flow that is perturbed out of phase. *)
Example C233_witness : (exists r r0, fd_sides 1 2 1 1 (Some (mkFq false 1 1 1 0)) true [([qw], FdSlip rew)] xr ziu ((ev0, ev0), (em0, em0)) = Ok r /\
    fd_sides 1 2 1 1 (Some (mkFq false 1 1 1 0)) true [([qw], FdSlip rew)] xr (ev0, ev0) ((ev0, ev0), (em0, em0)) = Ok r0) /\
  (forall q i, In q [qw] -> (i < 3)%nat -> at_pt (fs_rot rew) q i = 0) /\ (forall i, (i < 3)%nat -> snd (wall_dw rew qw) i = 0) /\
  fst (wall_dw rew qw) 0%nat = 1 /\ prim_init 1 2 1 false Ur = Ok (prim_of 1 2 1 false Ur).
Proof.
  split; [|split; [|split; [|split]]]; try reflexivity; [|apply Ur_ok].
  assert (EU : fe_U 1 qw xr = Ur) by (apply functional_extensionality; intros i; cbv -[Rplus Rmult IZR]; destruct i as [|[|[|]]]; ring).
  destruct (wall_matrix_real 1 2 1 1 1 rew qw Ur (prim_of 1 2 1 false Ur) (fe_U 1 qw (snd ziu)) 0%nat (or_introl eq_refl) ltac:(lra) Ur_ok ltac:(lia)) as (J & EJ & HJ).
  unfold fd_sides, ff_factor, fd_side, wall_side, wall_step. cbn [bind over fst snd ff_red ff_om rew fs_dw fs_dn]. rewrite EU, Ur_ok. cbn [bind]. fold rew. rewrite EJ. cbn [bind]. eauto.
Qed.
Print Assumptions C232_interior.
Print Assumptions C232_harmonic.
Print Assumptions C232_reduced.
Print Assumptions C232_sides.
Print Assumptions C232_refused.
Print Assumptions C232_runs.
Print Assumptions C233_wall_partial.
Print Assumptions C233_error.
Print Assumptions C233_side.
Print Assumptions C233_matrix_partial.
Print Assumptions C233_refused.
Print Assumptions C233_conjugate_refuted.
Print Assumptions C233_turned_refuted.
