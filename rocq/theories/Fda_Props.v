(** C240: element of the harmonic analysis of a flow. *)
From Coq Require Import List Arith Bool Lia Reals Lra FunctionalExtensionality.
From Verif Require Import Base BaseLemmas RBool Stre_Proofs Stre_Proofs2 Flui_Model Flui_Spec Flui_Proofs Flui_Proofs2 Flui_Props Cfe_Model Cfe_Spec Cfe_Proofs Cfe_Proofs2 Fdf_Model Fdf_Spec Fdf_Proofs Fdf_Proofs2 Fdf_Props Fdf_Props2 Fda_Model Fda_Spec.
Import ListNotations.
Open Scope R_scope.

Ltac fext := repeat (apply functional_extensionality; intro).
Section Props.
Variables (d : nat) (cp cv : R) (nphi : nat).
Notation mul := (emul d nphi).
Notation elem := (fd_elem d cp cv nphi).

Lemma emul_sum J K z v k : mul (em_add J K) z v k = mul J z v k + mul K z v k.
Proof. unfold emul, em_add. rewrite <- sum_plus. apply sum_ext; intros i _. rewrite <- sum_plus. apply sum_ext; intros; ring. Qed.
Lemma times_re_mul J z v k : times_re d nphi J z v k = mul (fst J) (fst z) v k - mul (snd J) (snd z) v k.
Proof.
  unfold times_re, emul. replace (nun d) with (d + 2)%nat by (unfold nun; lia).
  rewrite (sum_ext (d + 2) _ (fun i => sum nphi (fun a => fst J v k i a * fst z i a) + (-1) * sum nphi (fun a => snd J v k i a * snd z i a))).
  - rewrite sum_plus, sum_scal_l. ring.
  - intros i _. rewrite <- sum_scal_l, <- sum_plus. apply sum_ext; intros; ring.
Qed.
Lemma times_im_mul J z v k : times_im d nphi J z v k = mul (fst J) (snd z) v k + mul (snd J) (fst z) v k.
Proof.
  unfold times_im, emul. replace (nun d) with (d + 2)%nat by (unfold nun; lia).
  rewrite <- sum_plus. apply sum_ext; intros i _. apply sum_plus.
Qed.

(** the matrix a wall gives, and what it gives for no perturbation *)
Definition wall_J (bV : R) (b : fslip) (x : evec) (qps : list fpt) : emat := fun v k v' k' =>
  lsumq (fun q => fq_w q * bV * (fq_N q k * (match wall_jac d (cp - cv) cv (state_of_pt d cp cv nphi x q) (wall_speed0 d b q (state_of_pt d cp cv nphi x q)) (fq_n q) (at_pt (fs_rot b) q) with Ok J => J v v' | _ => 0 end) * fq_N q k')) qps.
Definition wall_G (bV om : R) (b : fslip) (x : evec) (qps : list fpt) : cvec :=
  (fun v k => lsumq (fun q => fq_w q * (fq_N q k * fst (wall_point d cp cv bV om b q (fe_U nphi q x) (state_of_pt d cp cv nphi x q) (vz, vz)) v)) qps,
   fun v k => lsumq (fun q => fq_w q * (fq_N q k * snd (wall_point d cp cv bV om b q (fe_U nphi q x) (state_of_pt d cp cv nphi x q) (vz, vz)) v)) qps).
Definition side_J (bV : R) (x : evec) (sc : list fpt * fdside) : emat :=
  match snd sc with
  | FdSymmetry => match still_matrix d cp cv nphi x (fst sc) SymmetryWall with Ok J => em_scale bV J | _ => em0 end
  | FdFar inf => match still_matrix d cp cv nphi x (fst sc) (FarField inf) with Ok J => em_scale bV J | _ => em0 end
  | FdSlip b => wall_J bV b x (fst sc)
  | _ => em0
  end.
Definition side_G (bV om : R) (x : evec) (sc : list fpt * fdside) : cvec :=
  match snd sc with FdSlip b => wall_G bV om b x (fst sc) | _ => (ev0, ev0) end.

Lemma wall_J_mul bV om b x qps y v k : valid_dim d -> 0 < cv < cp ->
  Forall (fun q => prim_init d cp cv false (fe_U nphi q x) = Ok (state_of_pt d cp cv nphi x q)) qps -> (v < d + 2)%nat ->
  mul (wall_J bV b x qps) y v k =
  lsumq (fun q => fq_w q * (fq_N q k * fst (wall_point d cp cv bV om (still b) q (fe_U nphi q x) (state_of_pt d cp cv nphi x q) (fe_U nphi q y, vz)) v)) qps.
Proof.
  intros D G F Hv. rewrite Forall_forall in F. unfold wall_J.
  rewrite (lsum_emul d nphi (fun q v k v' k' => fq_w q * bV * (fq_N q k * (match wall_jac d (cp - cv) cv (state_of_pt d cp cv nphi x q) (wall_speed0 d b q (state_of_pt d cp cv nphi x q)) (fq_n q) (at_pt (fs_rot b) q) with Ok J => J v v' | _ => 0 end) * fq_N q k')) qps y v k).
  apply lsum_ext. intros q Hq.
  destruct (wall_matrix_real d cp cv bV om b q (fe_U nphi q x) (state_of_pt d cp cv nphi x q) (fe_U nphi q y) v D G (F q Hq) ltac:(lia)) as (J & EJ & ->).
  rewrite EJ. apply (pt_mul d nphi bV q J y v k).
Qed.
(** one side: vector and matrix *)
Lemma side_affine bV om asked x z sc acc r : valid_dim d -> 0 < cv < cp -> fd_side d cp cv nphi bV om asked x z sc acc = Ok r ->
  snd r = (if asked then cm_add (snd acc) (side_J bV x sc, em0) else snd acc) /\
  (unturned [sc] -> forall v k, (v < d + 2)%nat ->
    fst (fst r) v k = fst (fst acc) v k + (fst (side_G bV om x sc) v k + mul (side_J bV x sc) (fst z) v k) /\
    snd (fst r) v k = snd (fst acc) v k + (snd (side_G bV om x sc) v k + mul (side_J bV x sc) (snd z) v k)).
Proof.
  intros D G H. destruct sc as [qps c]. unfold fd_side in H. cbn [fst snd] in H. unfold side_J, side_G. cbn [fst snd]. destruct c as [|b|inf| |].
  - destruct (still_matrix _ _ _ _ _ _ _) as [J|]; [|discriminate]. cbn [bind] in H. injection H as <-. unfold add_still, c_add, ev_add, cmul. cbn [fst snd].
    split; [destruct asked; reflexivity|]. intros _ v k Hv. rewrite !emul_zero. unfold ev0. split; ring.
  - assert (E : over (wall_step d cp cv nphi bV om asked b x z) qps acc = Ok r) by (unfold wall_side in H; destruct (fs_dw b), (fs_dn b); auto; discriminate).
    destruct (wall_over d cp cv nphi bV om asked b x z qps G acc r E) as (F & A1 & A2 & A3 & A4 & A5). split.
    + destruct r as [r1 [r2 r3]], acc as [a1 [a2 a3]]. cbn [fst snd] in *. subst r3. destruct asked.
      * unfold cm_add. cbn [fst snd]. f_equal; [|fext; unfold em_add, em0; ring]. fext. rewrite A3 by auto. reflexivity.
      * now rewrite A4.
    + intros U v k Hv. rewrite !(wall_J_mul bV om) by auto. unfold wall_G. cbn [fst snd]. rewrite A1, A2, <- !lsum_plus. rewrite Forall_forall in F.
      split; f_equal; apply lsum_ext; intros q Hq;
      destruct (wall_split d cp cv bV om b q (fe_U nphi q x) (state_of_pt d cp cv nphi x q) (fe_U nphi q (fst z), fe_U nphi q (snd z)) v D) as [W1 W2].
      * rewrite W1. cbn [fst snd]. ring.
      * rewrite W2. cbn [fst snd].
        replace (dot3 (duvec d (pert_of d cp cv false (state_of_pt d cp cv nphi x q) (fe_U nphi q (snd z)))) (at_pt (fs_rot b) q)) with 0; [ring|].
        unfold dot3; cbn [sum]. rewrite !(U qps b (or_introl eq_refl) q) by (auto; lia). ring.
  - destruct (still_matrix _ _ _ _ _ _ _) as [J|]; [|discriminate]. cbn [bind] in H. injection H as <-. unfold add_still, c_add, ev_add, cmul. cbn [fst snd].
    split; [destruct asked; reflexivity|]. intros _ v k Hv. rewrite !emul_zero. unfold ev0. split; ring.
  - injection H as <-. split.
    + destruct asked; auto. destruct (snd acc) as [a2 a3]. unfold cm_add; cbn [fst snd]. f_equal; fext; unfold em_add, em0; ring.
    + intros _ v k _. rewrite !emul_zero. cbn [fst snd]. unfold ev0. split; ring.
  - discriminate.
Qed.
Definition sides_J bV x sides : emat := fold_right (fun sc J => em_add (side_J bV x sc) J) em0 sides.
Definition sides_G bV om x sides : cvec := fold_right (fun sc g => c_add (side_G bV om x sc) g) (ev0, ev0) sides.
Lemma sides_J_cons bV x sc l : sides_J bV x (sc :: l) = em_add (side_J bV x sc) (sides_J bV x l). Proof. reflexivity. Qed.
Lemma sides_G_cons bV om x sc l : sides_G bV om x (sc :: l) = c_add (side_G bV om x sc) (sides_G bV om x l). Proof. reflexivity. Qed.
Lemma sides_affine bV om asked x z sides : valid_dim d -> 0 < cv < cp -> forall acc r, over (fd_side d cp cv nphi bV om asked x z) sides acc = Ok r ->
  snd r = (if asked then cm_add (snd acc) (sides_J bV x sides, em0) else snd acc) /\
  (unturned sides -> forall v k, (v < d + 2)%nat ->
    fst (fst r) v k = fst (fst acc) v k + (fst (sides_G bV om x sides) v k + mul (sides_J bV x sides) (fst z) v k) /\
    snd (fst r) v k = snd (fst acc) v k + (snd (sides_G bV om x sides) v k + mul (sides_J bV x sides) (snd z) v k)).
Proof.
  intros D G. induction sides as [|sc l IH]; intros acc r H; cbn [over] in H.
  - injection H as <-. cbn. split.
    + destruct asked; auto. destruct (snd acc) as [a2 a3]. unfold cm_add; cbn [fst snd]. f_equal; fext; unfold em_add, em0; ring.
    + intros _ v k _. rewrite !emul_zero. unfold ev0. split; ring.
  - destruct (fd_side _ _ _ _ _ _ _ _ _ sc acc) as [a|] eqn:E; [|discriminate]. cbn [bind] in H.
    destruct (side_affine _ _ _ _ _ _ _ _ D G E) as [M1 V1]. destruct (IH a r H) as [M2 V2]. split.
    + rewrite M2, M1. destruct asked; auto. unfold cm_add. rewrite sides_J_cons. cbn [fst snd]. f_equal; fext; unfold em_add, em0; ring.
    + intros U v k Hv.
      assert (U1 : unturned [sc]) by (intros q' b' [E'|[]]; apply U; left; auto).
      assert (U2 : unturned l) by (intros q' b' E'; apply U; right; auto).
      destruct (V1 U1 v k Hv) as [X1 X2]. destruct (V2 U2 v k Hv) as [Y1 Y2]. rewrite Y1, Y2, X1, X2.
      rewrite sides_J_cons, sides_G_cons, !emul_sum. unfold c_add, ev_add. cbn [fst snd]. split; ring.
Qed.
Lemma elem_inv fr asked tau shock qps sides x z r : valid_dim d -> 0 < cv < cp -> elem fr asked tau shock qps sides x z = Ok r ->
  exists f b km, fr = Some f /\ ff_factor f = Ok b /\ fd_matrices d cp cv nphi tau shock qps x = Ok km /\
  let J := (em_add (em_scale b (fst km)) (sides_J b x sides), em_scale (ff_om f) (snd km)) in
  snd r = (if asked then J else (em0, em0)) /\
  (unturned sides -> forall v k, (v < d + 2)%nat ->
    fst (fst r) v k = fst (sides_G b (ff_om f) x sides) v k + times_re d nphi J z v k /\
    snd (fst r) v k = snd (sides_G b (ff_om f) x sides) v k + times_im d nphi J z v k).
Proof.
  intros D G H. unfold fd_elem, fd_internal in H. destruct fr as [f|]; [|discriminate]. destruct (ff_factor f) as [b|] eqn:EB; [|discriminate]. cbn [bind] in H.
  destruct (fd_matrices _ _ _ _ _ _ _ _) as [km|] eqn:EM; [|discriminate]. cbn [bind] in H. unfold fd_sides in H. rewrite EB in H. cbn [bind] in H.
  destruct (sides_affine _ _ _ _ _ _ D G _ _ H) as [M V]. exists f, b, km. do 3 (split; [auto|]). cbv zeta. cbn [fst snd] in M, V. split.
  - rewrite M. destruct asked; auto. unfold cm_add. cbn [fst snd]. f_equal; fext; unfold em_add, em0; ring.
  - intros U v k Hv. destruct (V U v k Hv) as [V1 V2]. rewrite V1, V2, times_re_mul, times_im_mul. cbn [fst snd]. rewrite !emul_sum. unfold c_add, ev_add, cmul, ev0. cbn [fst snd]. split; ring.
Qed.

(** The vector is affine in the amplitude, and the matrix, which does not depend on it, is its slope. *)
Theorem C240_affine_partial : forall fr tau shock qps sides x z z0 r r0, valid_dim d -> 0 < cv < cp -> unturned sides ->
  elem fr true tau shock qps sides x z = Ok r -> elem fr true tau shock qps sides x z0 = Ok r0 ->
  snd r0 = snd r /\ forall v k, (v < d + 2)%nat ->
    fst (fst r) v k - fst (fst r0) v k = times_re d nphi (snd r) z v k - times_re d nphi (snd r) z0 v k /\
    snd (fst r) v k - snd (fst r0) v k = times_im d nphi (snd r) z v k - times_im d nphi (snd r) z0 v k.
Proof.
  intros fr tau shock qps sides x z z0 r r0 D G U H H0.
  destruct (elem_inv _ _ _ _ _ _ _ _ _ D G H) as (f & b & km & -> & EB & EM & M & V).
  destruct (elem_inv _ _ _ _ _ _ _ _ _ D G H0) as (f' & b' & km' & Ef & EB' & EM' & M' & V'). injection Ef as <-.
  rewrite EB in EB'. injection EB' as <-. rewrite EM in EM'. injection EM' as <-.
  split; [congruence|]. intros v k Hv. destruct (V U v k Hv) as [-> ->]. destruct (V' U v k Hv) as [-> ->]. rewrite M. split; ring.
Qed.
(** One linear solve: the vector vanishes for an amplitude if and only if the matrix takes it to what the walls force. *)
Theorem C240_solved_partial : forall fr tau shock qps sides x z r r0, valid_dim d -> 0 < cv < cp -> unturned sides ->
  elem fr true tau shock qps sides x z = Ok r -> elem fr true tau shock qps sides x (ev0, ev0) = Ok r0 ->
  forall v k, (v < d + 2)%nat ->
  ((fst (fst r) v k = 0 /\ snd (fst r) v k = 0) <->
   (times_re d nphi (snd r0) z v k = - fst (fst r0) v k /\ times_im d nphi (snd r0) z v k = - snd (fst r0) v k)).
Proof.
  intros fr tau shock qps sides x z r r0 D G U H H0 v k Hv.
  destruct (C240_affine_partial _ _ _ _ _ _ _ _ _ _ D G U H H0) as [E A]. destruct (A v k Hv) as [A1 A2]. rewrite E.
  assert (Z1 : times_re d nphi (snd r) (ev0, ev0) v k = 0) by (unfold times_re; apply sum_0; intros; apply sum_0; intros; unfold ev0; cbn; ring).
  assert (Z2 : times_im d nphi (snd r) (ev0, ev0) v k = 0) by (unfold times_im; apply sum_0; intros; apply sum_0; intros; unfold ev0; cbn; ring).
  rewrite Z1 in A1. rewrite Z2 in A2. split; intros [? ?]; split; lra.
Qed.
(** Where no wall oscillates, the vector is the matrix times the amplitude: nothing drives the flow. *)
Lemma wall_G_zero bV om b x qps v k : valid_dim d -> fs_dw b = None -> fst (wall_G bV om b x qps) v k = 0 /\ snd (wall_G bV om b x qps) v k = 0.
Proof.
  intros D N.
  assert (W : forall q, fst (wall_point d cp cv bV om b q (fe_U nphi q x) (state_of_pt d cp cv nphi x q) (vz, vz)) v = 0 /\ snd (wall_point d cp cv bV om b q (fe_U nphi q x) (state_of_pt d cp cv nphi x q) (vz, vz)) v = 0).
  { intros q. destruct (pert_zero d cp cv (state_of_pt d cp cv nphi x q) D) as [P0 D0].
    unfold wall_point. cbv zeta. cbn [fst snd].
    assert (Z : forall a, edot (rv a) (wall_dn b q) = (0, 0)) by (intros; unfold wall_dn; rewrite N; unfold edot, rv; cbn; f_equal; ring).
    assert (Z' : forall a, edot (wall_dw b q) (rv a) = (0, 0)) by (intros; unfold wall_dw; rewrite N; cbn [at_c]; unfold edot, rv; cbn; f_equal; ring).
    assert (C0 : edot (duvec d (pert_of d cp cv false (state_of_pt d cp cv nphi x q) vz), duvec d (pert_of d cp cv false (state_of_pt d cp cv nphi x q) vz)) (rv (at_pt (fs_rot b) q)) = (0, 0)).
    { unfold edot, rv; cbn [fst snd sum]. rewrite !D0. f_equal; ring. }
    rewrite !Z, !Z', C0. cbn [fst snd]. rewrite !P0. unfold vz. split; destruct (Nat.eqb v (d + 1)), (Nat.ltb 0 v && Nat.leb v d)%bool; ring. }
  unfold wall_G; cbn [fst snd]. split; (rewrite (lsum_ext _ (fun _ => 0)); [unfold lsumq; induction qps; cbn; lra|]);
  intros q _; destruct (W q) as [W1 W2]; rewrite ?W1, ?W2; ring.
Qed.
Lemma sides_G_zero bV om x sides v k : valid_dim d -> unmoved sides -> fst (sides_G bV om x sides) v k = 0 /\ snd (sides_G bV om x sides) v k = 0.
Proof.
  intros D. induction sides as [|[qps c] l IH]; intros U; [split; reflexivity|].
  destruct (IH (fun q b H => U q b (or_intror H))) as [I1 I2]. rewrite sides_G_cons. unfold c_add, ev_add. cbn [fst snd]. rewrite I1, I2.
  unfold side_G. cbn [fst snd]. destruct c as [|b|inf| |]; try (cbn; unfold ev0; split; ring).
  destruct (wall_G_zero bV om b x qps v k D (U qps b (or_introl eq_refl))) as [-> ->]. split; ring.
Qed.
Theorem C240_unforced_partial : forall fr tau shock qps sides x z r, valid_dim d -> 0 < cv < cp -> unturned sides -> unmoved sides ->
  elem fr true tau shock qps sides x z = Ok r -> forall v k, (v < d + 2)%nat ->
  fst (fst r) v k = times_re d nphi (snd r) z v k /\ snd (fst r) v k = times_im d nphi (snd r) z v k.
Proof.
  intros fr tau shock qps sides x z r D G U N H v k Hv.
  destruct (elem_inv _ _ _ _ _ _ _ _ _ D G H) as (f & b & km & -> & EB & EM & M & V). destruct (V U v k Hv) as [-> ->].
  destruct (sides_G_zero b (ff_om f) x sides v k D N) as [-> ->]. rewrite M. split; ring.
Qed.
(** The vector does not depend on whether the matrix is asked for, and without it the matrix is zero. *)
Lemma side_asked bV om x z sc acc r m : fd_side d cp cv nphi bV om true x z sc acc = Ok r ->
  exists m', fd_side d cp cv nphi bV om false x z sc (fst acc, m) = Ok (fst r, m') /\ m' = m.
Proof.
  unfold fd_side. destruct (snd sc) as [|b|inf| |].
  - destruct (still_matrix _ _ _ _ _ _ _) as [J|]; [|discriminate]. cbn [bind]. intros [= <-]. exists m. split; reflexivity.
  - intros H.
    assert (Q : forall l acc r, over (wall_step d cp cv nphi bV om true b x z) l acc = Ok r -> over (wall_step d cp cv nphi bV om false b x z) l (fst acc, m) = Ok (fst r, m)).
    { clear. induction l as [|q l IH]; intros acc r H; cbn [over] in *; [injection H as <-; reflexivity|].
      destruct (wall_step d cp cv nphi bV om true b x z q acc) as [a|] eqn:E; [|discriminate]. cbn [bind] in H.
      assert (E' : wall_step d cp cv nphi bV om false b x z q (fst acc, m) = Ok (fst a, m)).
      { unfold wall_step in *. destruct (prim_init _ _ _ _ _) as [s|]; [|discriminate]. cbn [bind] in *. destruct (wall_jac _ _ _ _ _ _ _) as [J|]; [|discriminate]. cbn [bind] in E. injection E as <-. reflexivity. }
      rewrite E'. cbn [bind]. apply IH. exact H. }
    exists m. split; auto. unfold wall_side in *. destruct (fs_dw b), (fs_dn b); try discriminate; apply Q; auto.
  - destruct (still_matrix _ _ _ _ _ _ _) as [J|]; [|discriminate]. cbn [bind]. intros [= <-]. exists m. split; reflexivity.
  - intros [= <-]. exists m. split; reflexivity.
  - discriminate.
Qed.
Theorem C240_asked : forall fr tau shock qps sides x z r, elem fr true tau shock qps sides x z = Ok r ->
  elem fr false tau shock qps sides x z = Ok (fst r, (em0, em0)).
Proof.
  intros fr tau shock qps sides x z r H. unfold fd_elem, fd_internal in *. destruct fr as [f|]; [|discriminate]. destruct (ff_factor f) as [b|] eqn:EB; [|discriminate]. cbn [bind] in *.
  destruct (fd_matrices _ _ _ _ _ _ _ _) as [km|]; [|discriminate]. cbn [bind fst snd] in *. unfold fd_sides in *. rewrite EB in *. cbn [bind] in *.
  revert H. generalize (cm_add (em0, em0) (em_scale b (fst km), em_scale (ff_om f) (snd km))) as m.
  generalize (c_add (ev0, ev0) (cmul d nphi (em_scale b (fst km), em_scale (ff_om f) (snd km)) z)) as g.
  induction sides as [|sc l IH]; intros g m H; cbn [over] in *; [injection H as <-; reflexivity|].
  destruct (fd_side _ _ _ _ _ _ true _ _ sc _) as [[g' m']|] eqn:E; [|discriminate]. cbn [bind] in H.
  destruct (side_asked _ _ _ _ _ _ _ (em0, em0) E) as (? & E' & ->). cbn [fst] in E'. rewrite E'. cbn [bind]. eapply IH. exact H.
Qed.
(** The sensitivity is the derivative of the vector, for frequency and amplitude that depend on the parameter, where no side is a slip wall
    and the time scale is fixed. *)
Theorem C240_derivative_partial : forall (F : R -> freqfn) (Z : R -> cvec) t0 zs tau shock qps sides x r s b, Forall no_wall sides ->
  (forall t, ff_factor (F t) = Ok b) -> derivable_pt_lim (fun t => ff_om (F t)) t0 (ff_dom (F t0)) -> cderiv Z t0 zs ->
  (forall t, exists m, elem (Some (F t)) false tau shock qps sides x (Z t) = Ok (r t, m)) ->
  fd_elem_sens d cp cv nphi (Some (F t0)) tau shock qps sides x (Z t0) zs = Ok s -> cderiv r t0 s.
Proof.
  intros F Z t0 zs tau shock qps sides x r s b N HB HO HZ HR HS.
  unfold fd_elem_sens in HS. destruct (fd_internal_sens _ _ _ _ _ _ _ _ _ _ _ _) as [si|] eqn:ES; [|discriminate]. cbn [bind] in HS.
  assert (HI : forall t, exists a, fd_internal d cp cv nphi (Some (F t)) false tau shock qps x (Z t) ((ev0, ev0), (em0, em0)) = Ok (a, (em0, em0)) /\
    exists m, fd_sides d cp cv nphi (Some (F t)) false sides x (Z t) (a, (em0, em0)) = Ok (r t, m)).
  { intros t. destruct (HR t) as [m H]. unfold fd_elem in H. destruct (fd_internal _ _ _ _ _ _ _ _ _ _ _ _) as [[a m1]|] eqn:E; [|discriminate]. cbn [bind] in H.
    assert (m1 = (em0, em0)) by (unfold fd_internal in E; rewrite HB in E; cbn [bind] in E; destruct (fd_matrices _ _ _ _ _ _ _ _); [|discriminate]; cbn in E; congruence).
    subst m1. exists a. split; eauto. }
  assert (HA : exists A : R -> cvec, forall t, fd_internal d cp cv nphi (Some (F t)) false tau shock qps x (Z t) ((ev0, ev0), (em0, em0)) = Ok (A t, (em0, em0))).
  { exists (fun t => match fd_internal d cp cv nphi (Some (F t)) false tau shock qps x (Z t) ((ev0, ev0), (em0, em0)) with Ok a => fst a | _ => (ev0, ev0) end).
    intros t. destruct (HI t) as (a & -> & _). reflexivity. }
  destruct HA as [A HA].
  pose proof (C234_interior_partial d cp cv nphi F Z t0 zs tau shock qps x A si b (em0, em0) HB HO HZ HA ES) as [I1 I2].
  unfold fd_sides_sens in HS. rewrite HB in HS. cbn [bind] in HS. apply (still_sens _ _ _ _ _ (ff_om (F t0)) _ _ _ _ N _ (em0, em0)) in HS.
  destruct (still_inv _ _ _ _ _ _ _ _ _ _ N _ _ HS) as (Js & FJ & S1 & S2 & _). cbn [fst snd] in S1, S2.
  assert (E : forall t, (forall v k, fst (r t) v k = fst (A t) v k + b * mul (fold_right em_add em0 Js) (fst (Z t)) v k) /\ (forall v k, snd (r t) v k = snd (A t) v k + b * mul (fold_right em_add em0 Js) (snd (Z t)) v k)).
  { intros t. destruct (HI t) as (a & Ea & m & Er). rewrite HA in Ea. injection Ea as <-. unfold fd_sides in Er. rewrite HB in Er. cbn [bind] in Er.
    destruct (still_inv _ _ _ _ _ _ _ _ _ _ N _ _ Er) as (Js' & FJ' & A1 & A2 & _).
    assert (EJ : Js' = Js).
    { clear - FJ FJ'. revert Js' FJ'. induction FJ as [|sc J l L HJ _ IH]; intros Js' FJ'; inversion FJ' as [|? J' ? L' HJ' FL']; subst; auto. f_equal; [|apply IH; auto].
      destruct (snd sc); try contradiction; try congruence. }
    subst Js'. cbn [fst snd] in A1, A2. split; auto. }
  destruct HZ as [HZ1 HZ2]. split; intros v k.
  - apply deriv_ext with (f := fun t => fst (A t) v k + b * mul (fold_right em_add em0 Js) (fst (Z t)) v k).
    + exists 1. split; [lra|]. intros t _. destruct (E t) as [-> _]. reflexivity.
    + rewrite S1. apply (derivable_pt_lim_plus (fun t => fst (A t) v k)); [apply I1|].
      apply (derivable_pt_lim_scal (fun t => mul (fold_right em_add em0 Js) (fst (Z t)) v k)). apply emul_deriv. exact HZ1.
  - apply deriv_ext with (f := fun t => snd (A t) v k + b * mul (fold_right em_add em0 Js) (snd (Z t)) v k).
    + exists 1. split; [lra|]. intros t _. destruct (E t) as [_ ->]. reflexivity.
    + rewrite S2. apply (derivable_pt_lim_plus (fun t => snd (A t) v k)); [apply I2|].
      apply (derivable_pt_lim_scal (fun t => mul (fold_right em_add em0 Js) (snd (Z t)) v k)). apply emul_deriv. exact HZ2.
Qed.

(** ** the object *)
(** An element keeps the frequency that was set when it was made: setting or clearing it later does not change what it computes. *)
Theorem C240_keeps : forall o cs o' asked tau shock qps sides x z zs, after cs o = Ok o' -> op_elem o <> None ->
  (forall c, In c cs -> c <> ClearElem) ->
  ops_calc d cp cv nphi o' asked tau shock qps sides x z = ops_calc d cp cv nphi o asked tau shock qps sides x z /\
  ops_sens d cp cv nphi o' tau shock qps sides x z zs = ops_sens d cp cv nphi o tau shock qps sides x z zs.
Proof.
  intros o cs o' asked tau shock qps sides x z zs H N C.
  assert (E : op_elem o' = op_elem o).
  { revert o H N C. induction cs as [|c cs IH]; intros o H N C; cbn [after] in H; [now injection H as <-|].
    destruct (ops_call c o) as [o1|] eqn:E; [|discriminate]. cbn [bind] in H.
    assert (E1 : op_elem o1 = op_elem o).
    { pose proof (C c (or_introl eq_refl)). destruct c; cbn in E; [destruct (op_freq o); [discriminate|]|..]; try (injection E as <-; reflexivity); [|congruence].
      destruct (op_elem o); [discriminate|congruence]. }
    rewrite <- E1. apply IH; auto; [now rewrite E1|]. intros c' H'. apply C. right; auto. }
  unfold ops_calc, ops_sens. now rewrite E.
Qed.
(** What a session computes: with the frequency set last before the element was made, as that frequency and nothing else. *)
Theorem C240_session : forall o f cs o' asked tau shock qps sides x z zs, op_freq o = None -> op_elem o = None ->
  after (SetFrequency f :: InitElem :: cs) o = Ok o' -> (forall c, In c cs -> c <> ClearElem) ->
  ops_calc d cp cv nphi o' asked tau shock qps sides x z = fd_elem d cp cv nphi (Some f) asked tau shock qps sides x z /\
  ops_sens d cp cv nphi o' tau shock qps sides x z zs = fd_elem_sens d cp cv nphi (Some f) tau shock qps sides x z zs.
Proof.
  intros o f cs o' asked tau shock qps sides x z zs E1 E2 H C. cbn [after] in H. unfold ops_call at 1 in H. rewrite E1 in H. cbn [bind] in H.
  unfold ops_call at 1 in H. cbn [op_elem op_freq] in H. rewrite E2 in H. cbn [bind] in H.
  apply (C240_keeps _ cs o' asked tau shock qps sides x z zs) in H; [|cbn; discriminate|exact C]. exact H.
Qed.
(** A second frequency is refused until the first is cleared, a second element until the first is; no element, no result; an element made
    without a frequency computes nothing. *)
Theorem C240_refused : forall o asked tau shock qps sides x z zs,
  (forall f, op_freq o <> None <-> ops_call (SetFrequency f) o = Fault AssertFailed) /\
  (op_elem o <> None <-> ops_call InitElem o = Fault AssertFailed) /\
  (forall f o1 o2, ops_call ClearFrequency o = Ok o1 -> ops_call (SetFrequency f) o1 = Ok o2 -> op_freq o2 = Some f) /\
  (forall f, exists o1, ops_call ClearFrequency o = Ok o1 /\ exists o2, ops_call (SetFrequency f) o1 = Ok o2) /\
  (exists o1, ops_call ClearElem o = Ok o1 /\ exists o2, ops_call InitElem o1 = Ok o2) /\
  (op_elem o = None -> ops_calc d cp cv nphi o asked tau shock qps sides x z = Fault AssertFailed /\ ops_sens d cp cv nphi o tau shock qps sides x z zs = Fault AssertFailed) /\
  (op_freq o = None -> forall o', ops_call InitElem o = Ok o' ->
    ops_calc d cp cv nphi o' asked tau shock qps sides x z = Fault NullDeref /\ ops_sens d cp cv nphi o' tau shock qps sides x z zs = Fault NullDeref).
Proof.
  intros [fq el] asked tau shock qps sides x z zs. cbn [op_freq op_elem]. split; [|split; [|split; [|split; [|split; [|split]]]]].
  - intros f. cbn. destruct fq; split; congruence.
  - cbn. destruct el; split; congruence.
  - cbn. intros f o1 o2 [= <-]. cbn. intros [= <-]. reflexivity.
  - intros f. eexists. split; [reflexivity|]. cbn. eauto.
  - eexists. split; [reflexivity|]. cbn. eauto.
  - intros ->. split; reflexivity.
  - intros -> o' H. cbn in H. destruct el; [discriminate|]. injection H as <-. split; reflexivity.
Qed.
End Props.

(** Where the base motion turns the normal of a wall, the matrix is not the slope: C233_turned_refuted, for the whole element. *)
Theorem C240_turned_refuted : exists f qps sides x z r r0,
  fd_elem 1 2 1 1 (Some f) true (fun _ _ => mx0) None qps sides x z = Ok r /\
  fd_elem 1 2 1 1 (Some f) true (fun _ _ => mx0) None qps sides x (ev0, ev0) = Ok r0 /\
  snd (fst r) 0%nat 0%nat <> snd (fst r0) 0%nat 0%nat + times_im 1 1 (snd r) z 0%nat 0%nat.
Proof.
  assert (EU : fe_U 1 qw xr = Ur) by (apply functional_extensionality; intros i; cbv -[Rplus Rmult IZR]; destruct i as [|[|[|]]]; ring).
  destruct (wall_matrix_real 1 2 1 1 1 tilt qw Ur (prim_of 1 2 1 false Ur) (fe_U 1 qw (snd ziu)) 0%nat (or_introl eq_refl) ltac:(lra) Ur_ok ltac:(lia)) as (J & EJ & HJ).
  assert (Q : forall z, exists r, fd_elem 1 2 1 1 (Some (mkFq false 1 1 1 0)) true (fun _ _ => mx0) None [] [([qw], FdSlip tilt)] xr z = Ok r /\
    snd (fst r) 0%nat 0%nat = snd (wall_point 1 2 1 1 1 tilt qw Ur (prim_of 1 2 1 false Ur) (fe_U 1 qw (fst z), fe_U 1 qw (snd z))) 0%nat /\
    times_im 1 1 (snd r) ziu 0%nat 0%nat = mvec 3 J (fe_U 1 qw (snd ziu)) 0%nat).
  { intros z. unfold fd_elem, fd_internal, fd_matrices, internal_residual, velocity_residual, fd_sides, ff_factor, fd_side, wall_side, wall_step.
    cbn [bind over fst snd ff_red ff_om tilt fs_dw fs_dn]. rewrite EU, Ur_ok. cbn [bind]. fold tilt. rewrite EJ. cbn [bind].
    eexists. split; [reflexivity|]. cbn [fst snd]. split.
    - unfold add_vec, c_add, ev_add, cmul, ev0; cbn [fst snd fq_w fq_N qw]. rewrite !emul_scale. unfold em_add, emul, em0. cbn [nun sum Nat.add]. ring.
    - rewrite times_im_mul. cbn [fst snd]. unfold add_mat, cm_add, em_add, em_scale, emul, mvec, fe_U, em0. cbn [sum fq_w fq_N qw fst snd]. cbn. ring. }
  destruct (Q ziu) as (r & E1 & A1 & B1). destruct (Q (ev0, ev0)) as (r0 & E0 & A0 & _).
  exists (mkFq false 1 1 1 0), [], [([qw], FdSlip tilt)], xr, ziu, r, r0. split; [exact E1|]. split; [exact E0|].
  rewrite A1, A0, B1.
  destruct (wall_split 1 2 1 1 1 tilt qw Ur (prim_of 1 2 1 false Ur) (fe_U 1 qw (fst ziu), fe_U 1 qw (snd ziu)) 0%nat (or_introl eq_refl)) as [_ ->].
  cbn [fst snd] in *. change (2 + 1)%nat with 3%nat in HJ. rewrite HJ.
  assert (Z0 : fe_U 1 qw ev0 = vz) by (apply functional_extensionality; intros i; unfold fe_U, ev0, vz; cbn; ring). rewrite Z0.
  replace (dot3 (duvec 1 (pert_of 1 2 1 false (prim_of 1 2 1 false Ur) (fe_U 1 qw (snd ziu)))) (at_pt (fs_rot tilt) qw)) with 1 by (cbv -[Rplus Rmult IZR Rdiv Rinv Rminus]; field).
  cbn [Ur Nat.eqb Nat.add]. lra.
Qed.
(** Gas at rest around a point, with a wall that moves and a flow perturbed out of phase: both runs succeed, with and without the matrix. *)
Example C240_witness : (exists r r0, fd_elem 1 2 1 1 (Some (mkFq false 1 1 1 0)) true (fun _ _ => mx0) None [qw] [([qw], FdSlip rew); ([qw], FdDirichlet)] xr ziu = Ok r /\
    fd_elem 1 2 1 1 (Some (mkFq false 1 1 1 0)) true (fun _ _ => mx0) None [qw] [([qw], FdSlip rew); ([qw], FdDirichlet)] xr (ev0, ev0) = Ok r0) /\
  unturned [([qw], FdSlip rew); ([qw], FdDirichlet)] /\ unmoved [([qw], FdSlip (still rew))] /\
  (exists o, after [SetFrequency (mkFq false 1 1 1 0); InitElem; ClearFrequency; SetFrequency (mkFq true 3 1 1 0)] ops_new = Ok o /\ op_elem o = Some (Some (mkFq false 1 1 1 0))) /\
  (exists s, fd_elem_sens 1 2 1 1 (Some (mkFq false 1 1 1 1)) (fun _ _ => mx0) None [qw] [([qw], FdDirichlet)] xr ziu (ev0, ev0) = Ok s) /\
  (forall t, exists r, fd_elem 1 2 1 1 (Some (mkFq false t 1 1 1)) false (fun _ _ => mx0) None [qw] [([qw], FdDirichlet)] xr ziu = Ok r).
Proof.
  assert (EU : fe_U 1 qw xr = Ur) by (apply functional_extensionality; intros i; cbv -[Rplus Rmult IZR]; destruct i as [|[|[|]]]; ring).
  destruct (wall_matrix_real 1 2 1 1 1 rew qw Ur (prim_of 1 2 1 false Ur) (fe_U 1 qw (snd ziu)) 0%nat (or_introl eq_refl) ltac:(lra) Ur_ok ltac:(lia)) as (J & EJ & HJ).
  assert (Q : forall z asked f, ff_factor f = Ok 1 -> exists r, fd_internal 1 2 1 1 (Some f) asked (fun _ _ => mx0) None [qw] xr z ((ev0, ev0), (em0, em0)) = Ok r).
  { intros z asked f Ef. eapply C232_runs; [left; reflexivity|lra|exact Ef|apply xr_phys]. }
  split; [|split; [|split; [|split; [|split]]]].
  - assert (R1 : forall z, exists r, fd_elem 1 2 1 1 (Some (mkFq false 1 1 1 0)) true (fun _ _ => mx0) None [qw] [([qw], FdSlip rew); ([qw], FdDirichlet)] xr z = Ok r).
    { intros z. unfold fd_elem. destruct (Q z true (mkFq false 1 1 1 0) eq_refl) as [a ->]. cbn [bind].
      unfold fd_sides, ff_factor, fd_side, wall_side, wall_step. cbn [bind over fst snd ff_red ff_om rew fs_dw fs_dn]. rewrite EU, Ur_ok. cbn [bind]. fold rew. rewrite EJ. cbn [bind]. eauto. }
    destruct (R1 ziu) as [r ?]. destruct (R1 (ev0, ev0)) as [r0 ?]. eauto.
  - intros qps b [[= <- <-]|[H|[]]]; [|discriminate]. intros q i _ _. reflexivity.
  - intros qps b [[= <- <-]|[]]. reflexivity.
  - eexists. split; reflexivity.
  - destruct (Q ziu false (mkFq false 1 1 1 1) eq_refl) as [a Ea]. unfold fd_elem_sens, fd_internal_sens. unfold fd_internal in Ea. cbn [ff_factor ff_red bind] in *.
    destruct (fd_matrices _ _ _ _ _ _ _ _) as [km|]; [|discriminate]. cbn. eauto.
  - intros t. unfold fd_elem. destruct (Q ziu false (mkFq false t 1 1 1) eq_refl) as [a ->]. cbn. eauto.
Qed.
Print Assumptions C240_affine_partial.
Print Assumptions C240_solved_partial.
Print Assumptions C240_unforced_partial.
Print Assumptions C240_asked.
Print Assumptions C240_derivative_partial.
Print Assumptions C240_keeps.
Print Assumptions C240_session.
Print Assumptions C240_refused.
Print Assumptions C240_turned_refuted.
Print Assumptions C240_witness.
