(** C241: shock capturing. *)
From Coq Require Import List Arith Bool Lia Reals Lra.
From Verif Require Import Base BaseLemmas RBool Flui_Model Flui_Spec Flui_Proofs Flui_Proofs2 Flui_Proofs4 Flui_Props Cfe_Model Cfe_Spec Cfe_Proofs Cfe_Proofs2 Cfe_Props Shk_Model Shk_Spec.
Import ListNotations.
Open Scope R_scope.

Section Props.
Variables (d : nat) (cp cv : R) (nphi : nat).
Hypothesis D : valid_dim d.
Hypothesis G : 0 < cv < cp.
Notation op := (shock_op d cp cv nphi).
Notation B_at s := (dvu_fn d cv (cp / cv) s).

(** the form of the entropy variables is a sum of squares *)
Definition dot_u (s : prim) (y : vec) : R := sum d (fun i => match i with 0%nat => p_u1 s | 1%nat => p_u2 s | _ => p_u3 s end * y (1 + i)%nat).
Definition slip2 (s : prim) (y : vec) : R := sum d (fun i => (y (1 + i)%nat - match i with 0%nat => p_u1 s | 1%nat => p_u2 s | _ => p_u3 s end * y 0%nat) ^ 2).
Lemma quad_squares s y : state d cp cv s -> p_rho s <> 0 -> p_T s <> 0 ->
  quad d (B_at s) y = ((y (d + 1)%nat - dot_u s y + p_k s * y 0%nat - cv * p_T s * y 0%nat) ^ 2 + cv * p_T s * slip2 s y + (cp / cv - 1) * (cv * p_T s * y 0%nat) ^ 2)
     / (p_rho s * (cv * p_T s) ^ 2).
Proof.
  intros S HR HT. destruct S as [Sk ST _ S2 S3].
  assert (E : p_e s = cv * p_T s + p_k s) by (rewrite ST; field; lra). clear ST.
  assert (CV : cv <> 0) by lra.
  unfold quad, dot_u, slip2. dims D.
  - rewrite S2, S3 in Sk by lia. unfold mvec. ev4. cbn [Nat.add]. rewrite E, Sk. field. repeat split; auto.
  - rewrite S3 in Sk by lia. unfold mvec. ev4. cbn [Nat.add]. rewrite E, Sk. field. repeat split; auto.
  - unfold mvec. ev4. cbn [Nat.add]. rewrite E, Sk. field. repeat split; auto.
Qed.
Lemma sum_nonneg n f : (forall i, (i < n)%nat -> 0 <= f i) -> 0 <= sum n f.
Proof. induction n; intros H; cbn [sum]; [lra|]. pose proof (H n ltac:(lia)). assert (0 <= sum n f) by (apply IHn; intros; apply H; lia). lra. Qed.
Lemma pow2_gt_0 r : r <> 0 -> 0 < r ^ 2.
Proof. intros H. replace (r ^ 2) with (r * r) by ring. apply Rsqr_pos_lt. exact H. Qed.
Lemma sum_nonneg_0 n f : (forall i, (i < n)%nat -> 0 <= f i) -> sum n f = 0 -> forall i, (i < n)%nat -> f i = 0.
Proof.
  induction n; intros H E i Hi; [lia|]. cbn [sum] in E. pose proof (H n ltac:(lia)). assert (0 <= sum n f) by (apply sum_nonneg; intros; apply H; lia).
  destruct (Nat.eq_dec i n) as [->|]; [lra|]. apply IHn; [intros; apply H; lia|lra|lia].
Qed.
Lemma quad_pos s y : state d cp cv s -> 0 < p_rho s -> 0 < p_T s -> 0 <= quad d (B_at s) y /\ (quad d (B_at s) y = 0 <-> forall v, (v < 2 + d)%nat -> y v = 0).
Proof.
  intros S HR HT. rewrite quad_squares by (auto; lra).
  set (c := cv * p_T s). assert (C : 0 < c) by (unfold c; apply Rmult_lt_0_compat; lra).
  assert (P : 0 < p_rho s * c ^ 2) by (apply Rmult_lt_0_compat; auto; apply pow_lt; auto).
  assert (GM : 0 < cp / cv - 1). { assert (1 < cp / cv) by (apply Rmult_lt_reg_r with cv; [lra|]; unfold Rdiv; rewrite Rmult_assoc, Rinv_l; lra). lra. }
  set (a := y (d + 1)%nat - dot_u s y + p_k s * y 0%nat - c * y 0%nat).
  assert (Q1 : 0 <= a ^ 2) by apply pow2_ge_0.
  assert (Q2 : 0 <= slip2 s y) by (apply sum_nonneg; intros; apply pow2_ge_0).
  assert (Q2' : 0 <= c * slip2 s y) by (apply Rmult_le_pos; lra).
  assert (Q3 : 0 <= (c * y 0%nat) ^ 2) by apply pow2_ge_0.
  assert (Q3' : 0 <= (cp / cv - 1) * (c * y 0%nat) ^ 2) by (apply Rmult_le_pos; lra).
  split; [apply Rmult_le_pos; [lra|left; apply Rinv_0_lt_compat; auto]|]. split.
  - intros E. assert (N : a ^ 2 + c * slip2 s y + (cp / cv - 1) * (c * y 0%nat) ^ 2 = 0).
    { apply Rmult_eq_reg_r with (/ (p_rho s * c ^ 2)); [rewrite Rmult_0_l; exact E|]. apply Rinv_neq_0_compat. lra. }
    assert (N3 : (c * y 0%nat) ^ 2 = 0) by (apply Rmult_eq_reg_l with (cp / cv - 1); lra).
    assert (Y0 : y 0%nat = 0). { assert (c * y 0%nat = 0) by (destruct (Req_dec (c * y 0%nat) 0); auto; pose proof (pow2_gt_0 _ H); lra). apply Rmult_eq_reg_l with c; lra. }
    assert (N2 : slip2 s y = 0) by (apply Rmult_eq_reg_l with c; lra).
    assert (YI : forall i, (i < d)%nat -> y (1 + i)%nat = 0).
    { intros i Hi. pose proof (sum_nonneg_0 d _ (fun i _ => pow2_ge_0 _) N2 i Hi) as Z. cbv beta in Z. rewrite Y0, Rmult_0_r, Rminus_0_r in Z.
      destruct (Req_dec (y (1 + i)%nat) 0); auto. pose proof (pow2_gt_0 _ H). lra. }
    assert (A0 : a = 0) by (destruct (Req_dec a 0); auto; pose proof (pow2_gt_0 _ H); lra).
    assert (DU : dot_u s y = 0) by (apply sum_0; intros i Hi; rewrite YI by auto; ring).
    intros v Hv. destruct v as [|v]; auto. destruct (Nat.eq_dec v d) as [->|]; [|apply (YI v); lia].
    unfold a in A0. rewrite DU, Y0 in A0. replace (Datatypes.S d) with (d + 1)%nat by lia. lra.
  - intros Z. assert (Y0 : y 0%nat = 0) by (apply Z; lia). assert (DU : dot_u s y = 0) by (apply sum_0; intros i Hi; rewrite (Z (1 + i)%nat) by lia; ring).
    assert (S0 : slip2 s y = 0) by (apply sum_0; intros i Hi; rewrite Y0, (Z (1 + i)%nat) by lia; ring).
    unfold a. rewrite DU, S0, Y0, (Z (d + 1)%nat) by lia. unfold Rdiv. ring.
Qed.

(** what the code computes, in closed form *)
Definition r_at (x : evec) (q : fpt) (s : prim) : vec := fun i => sum d (fun c => mvec (2 + d) (Afn d cp cv s c) (fe_dU nphi q x c) i).
Definition den_at (dxi : fpt -> nat -> nat -> R) (x : evec) (q : fpt) (s : prim) : R :=
  1 / 1000000 + sum d (fun i => quad d (B_at s) (fun v => sum d (fun j => dxi q i j * fe_dU nphi q x j v))).
Lemma quad_ext B y z : (forall i, (i < 2 + d)%nat -> y i = z i) -> quad d B y = quad d B z.
Proof. intros H. unfold quad, mvec. apply sum_ext; intros i Hi. rewrite H by auto. f_equal. apply sum_ext; intros j Hj. rewrite H; auto. Qed.
Lemma op_closed k dxi x q s : prim_init d cp cv false (fe_U nphi q x) = Ok s ->
  s = state_at d cp cv nphi x q /\ 0 < den_at dxi x q s /\ 0 <= quad d (B_at s) (r_at x q s) / den_at dxi x q s /\
  op k dxi x q = if sk_switch k then Fault AssertFailed else if Nat.eqb (sk_order k) 0 then Fault DivByZero
    else Ok (fun i => if Nat.ltb i d then sqrt (quad d (B_at s) (r_at x q s) / den_at dxi x q s) * sk_scale k / INR (sk_order k) else 0).
Proof.
  intros H. destruct (prim_init_ok _ _ _ _ _ _ G H) as (Es & HR & HT & _).
  assert (S : state d cp cv s) by (rewrite Es; apply state_of).
  assert (P : 0 < den_at dxi x q s).
  { unfold den_at. assert (0 <= sum d (fun i => quad d (B_at s) (fun v => sum d (fun j => dxi q i j * fe_dU nphi q x j v)))) by (apply sum_nonneg; intros; apply quad_pos; auto). lra. }
  assert (N : 0 <= quad d (B_at s) (r_at x q s) / den_at dxi x q s).
  { apply Rmult_le_pos; [apply quad_pos; auto|left; apply Rinv_0_lt_compat; auto]. }
  split; [exact Es|]. split; [exact P|]. split; [exact N|].
  unfold shock_op. rewrite H. cbn [bind].
  destruct (each_ok mx0 d (fun c => adv_jac d c (cp - cv) cv (cp / cv) s) (Afn d cp cv s)) as (A & EA & QA); [intros; apply adv_jac_safe; auto|].
  rewrite EA, (dvu_safe d cv (cp / cv) s D). cbn [bind].
  assert (ER : quad d (B_at s) (fun i => sum d (fun c => mvec (2 + d) (A c) (fe_dU nphi q x c) i)) = quad d (B_at s) (r_at x q s)).
  { apply quad_ext. intros i _. apply sum_ext. intros c Hc. rewrite QA; auto. }
  cbv zeta. fold (den_at dxi x q s). rewrite ER.
  rewrite (proj2 (reqb_false (den_at dxi x q s) 0)) by lra.
  rewrite (proj2 (rltb_false _ _)) by lra. reflexivity.
Qed.
Lemma op_inv k dxi x q dc : op k dxi x q = Ok dc -> exists s, prim_init d cp cv false (fe_U nphi q x) = Ok s.
Proof. unfold shock_op. destruct (prim_init _ _ _ _ _) as [s|]; [eauto|discriminate]. Qed.
Lemma op_value k dxi x q dc : op k dxi x q = Ok dc -> exists s, prim_init d cp cv false (fe_U nphi q x) = Ok s /\ sk_switch k = false /\ (0 < sk_order k)%nat /\
  0 < den_at dxi x q s /\ 0 <= quad d (B_at s) (r_at x q s) / den_at dxi x q s /\
  dc = fun i => if Nat.ltb i d then sqrt (quad d (B_at s) (r_at x q s) / den_at dxi x q s) * sk_scale k / INR (sk_order k) else 0.
Proof.
  intros H. destruct (op_inv _ _ _ _ _ H) as [s Es]. destruct (op_closed k dxi x q s Es) as (_ & P & N & E). rewrite E in H.
  destruct (sk_switch k); [discriminate|]. destruct (Nat.eqb (sk_order k) 0) eqn:O; [discriminate|]. apply Nat.eqb_neq in O. injection H as <-.
  exists s. repeat split; auto; try lia.
Qed.

(** At every point with positive density and temperature there is a coefficient: the root is of a number that is not negative and no
    denominator vanishes.  It is the same in every direction, and it is not negative. *)
Theorem C241_runs : forall k dxi x q, physical d cp cv nphi x [q] -> sk_switch k = false -> (0 < sk_order k)%nat ->
  exists dc, op k dxi x q = Ok dc /\ (forall i, (i < d)%nat -> dc i = dc 0%nat) /\ (0 <= sk_scale k -> forall i, 0 <= dc i).
Proof.
  intros k dxi x q P HS HO. pose proof (proj2 (good_iff d cp cv nphi G x q) (P q (or_introl eq_refl))) as E.
  destruct (op_closed k dxi x q _ E) as (_ & HP & HN & EQ). rewrite HS, (proj2 (Nat.eqb_neq _ _)) in EQ by lia. eexists. split; [exact EQ|].
  assert (D0 : (0 < d)%nat) by (dims D; lia). assert (IO : 0 < INR (sk_order k)) by (apply lt_0_INR; auto). split.
  - intros i Hi. rewrite !(proj2 (Nat.ltb_lt _ _)) by auto. reflexivity.
  - intros HSc i. destruct (Nat.ltb i d); [|lra]. apply Rmult_le_pos; [|left; apply Rinv_0_lt_compat; auto]. apply Rmult_le_pos; auto. apply sqrt_pos.
Qed.
Lemma flux_rate x q s : prim_init d cp cv false (fe_U nphi q x) = Ok s -> forall c v, (c < d)%nat -> (v < 2 + d)%nat ->
  derivable_pt_lim (fun t => match adv_flux d c (prim_of d cp cv false (fun i => fe_U nphi q x i + t * fe_dU nphi q x c i)) with Ok F => F v | _ => 0 end) 0
    (mvec (2 + d) (Afn d cp cv s c) (fe_dU nphi q x c) v).
Proof.
  intros Es c v Hc Hv.
    assert (FO : follows (fun t i => fe_U nphi q x i + t * fe_dU nphi q x c i) 0 (fe_dU nphi q x c)).
    { apply demo_family. }
    assert (E0 : prim_init d cp cv false (fun i => fe_U nphi q x i + 0 * fe_dU nphi q x c i) = Ok s).
    { rewrite <- Es. f_equal. apply FunctionalExtensionality.functional_extensionality. intros i. ring. }
    destruct (flux_jacobian_is_derivative d cp cv false D G (fun t i => fe_U nphi q x i + t * fe_dU nphi q x c i) 0 (fe_dU nphi q x c) s c Hc FO E0) as (A & EA & Fl & EF & DF).
    rewrite (adv_jac_safe d c _ _ _ s D Hc) in EA. injection EA as <-. specialize (DF v Hv).
    replace (fun t => match adv_flux d c (prim_of d cp cv false (fun i => fe_U nphi q x i + t * fe_dU nphi q x c i)) with Ok F => F v | _ => 0 end) with (fun t => Fl t v); [exact DF|].
    apply FunctionalExtensionality.functional_extensionality. intros t. rewrite EF. reflexivity.
Qed.
Lemma gauge_quad x q s y g : prim_init d cp cv false (fe_U nphi q x) = Ok s -> gauge_of d cp cv (fe_U nphi q x) y g <-> g = quad d (B_at s) y.
Proof.
  intros Es.
  assert (E0 : prim_init d cp cv false (fun i => fe_U nphi q x i + 0 * y i) = Ok s).
  { rewrite <- Es. f_equal. apply FunctionalExtensionality.functional_extensionality. intros i. ring. }
  destruct (entropy_jacobian_is_derivative d cp cv false D G (fun t i => fe_U nphi q x i + t * y i) 0 y s (proj1 (demo_family _ _)) E0) as (B & EB & DB).
  rewrite (dvu_safe d cv (cp / cv) s D) in EB. injection EB as <-. split.
  - intros (w & HW & ->). unfold quad. apply sum_ext. intros v Hv. f_equal. eapply uniqueness_limite; [apply HW; auto|apply DB; auto].
  - intros ->. exists (mvec (2 + d) (B_at s) y). split; [intros; apply DB; auto|reflexivity].
Qed.
(** It vanishes where, and only where, the flow satisfies the steady equations. *)
Theorem C241_consistent : forall k dxi x q dc, op k dxi x q = Ok dc -> sk_scale k <> 0 ->
  ((forall i, (i < d)%nat -> dc i = 0) <-> steady_at d cp cv nphi x q).
Proof.
  intros k dxi x q dc H NS. destruct (op_value _ _ _ _ _ H) as (s & Es & _ & HO & P & N & ->).
  destruct (prim_init_ok _ _ _ _ _ _ G Es) as (E & HR & HT & _). assert (S : state d cp cv s) by (rewrite E; apply state_of).
  destruct (quad_pos s (r_at x q s) S HR HT) as [QP QZ].
  assert (D0 : (0 < d)%nat) by (dims D; lia). assert (IO : 0 < INR (sk_order k)) by (apply lt_0_INR; auto).
  assert (Z1 : (forall i, (i < d)%nat -> (if Nat.ltb i d then sqrt (quad d (B_at s) (r_at x q s) / den_at dxi x q s) * sk_scale k / INR (sk_order k) else 0) = 0) <-> quad d (B_at s) (r_at x q s) = 0).
  { split.
    - intros Z. specialize (Z 0%nat D0). rewrite (proj2 (Nat.ltb_lt _ _)) in Z by auto.
      assert (Z' : sqrt (quad d (B_at s) (r_at x q s) / den_at dxi x q s) = 0).
      { apply Rmult_integral in Z. destruct Z as [Z|Z]; [|pose proof (Rinv_neq_0_compat (INR (sk_order k)) ltac:(lra)); contradiction]. apply Rmult_integral in Z. destruct Z; auto; contradiction. }
      apply sqrt_eq_0 in Z'; auto. apply Rmult_integral in Z'. destruct Z' as [Z'|Z']; auto. pose proof (Rinv_neq_0_compat (den_at dxi x q s) ltac:(lra)). contradiction.
    - intros Z i Hi. rewrite (proj2 (Nat.ltb_lt _ _)) by auto. rewrite Z. unfold Rdiv. rewrite Rmult_0_l, sqrt_0. ring. }
  rewrite Z1, QZ.
  pose proof (flux_rate x q s Es) as FJ.
  unfold steady_at. split.
  - intros Z. exists (fun c v => mvec (2 + d) (Afn d cp cv s c) (fe_dU nphi q x c) v). split; auto.
  - intros (rate & HRt & HZ) v Hv. rewrite <- (HZ v Hv). apply sum_ext. intros c Hc. eapply uniqueness_limite; [apply FJ; auto|apply HRt; auto].
Qed.
Theorem C241_uniform : forall k dxi x q dc, op k dxi x q = Ok dc -> uniform_at d nphi x q -> forall i, dc i = 0.
Proof.
  intros k dxi x q dc H U i. destruct (op_value _ _ _ _ _ H) as (s & Es & _ & HO & P & N & ->). destruct (Nat.ltb i d); auto.
  assert (Z : quad d (B_at s) (r_at x q s) = 0).
  { rewrite (quad_ext _ _ (fun _ => 0)).
    - unfold quad. apply sum_0. intros; ring.
    - intros v Hv. apply sum_0. intros c Hc. unfold mvec. apply sum_0. intros j Hj. rewrite U by auto. ring. }
  rewrite Z. unfold Rdiv. rewrite Rmult_0_l, sqrt_0. ring.
Qed.
(** The coefficient of every direction: the square root of the size of the imbalance over the size of the gradient in the coordinates of
    the element, times the scaling and over the order. *)
Theorem C241_value : forall k dxi x q dc r g gs, op k dxi x q = Ok dc -> imbalance d cp cv nphi x q r -> gauge_of d cp cv (fe_U nphi q x) r g ->
  (forall i, (i < d)%nat -> gauge_of d cp cv (fe_U nphi q x) (fun v => sum d (fun j => dxi q i j * fe_dU nphi q x j v)) (gs i)) ->
  forall i, (i < d)%nat -> dc i = sk_scale k / INR (sk_order k) * sqrt (g / (1 / 1000000 + sum d gs)).
Proof.
  intros k dxi x q dc r g gs H (rate & HR & HI) HG HS i Hi. destruct (op_value _ _ _ _ _ H) as (s & Es & _ & HO & P & N & ->).
  rewrite (proj2 (Nat.ltb_lt _ _)) by auto. apply (gauge_quad x q s) in HG; auto.
  assert (E : g = quad d (B_at s) (r_at x q s)).
  { rewrite HG. apply quad_ext. intros v Hv. rewrite HI. apply sum_ext. intros c Hc. eapply uniqueness_limite; [apply HR; auto|apply flux_rate; auto]. }
  assert (E2 : 1 / 1000000 + sum d gs = den_at dxi x q s).
  { unfold den_at. f_equal. apply sum_ext. intros j Hj. apply (gauge_quad x q s); auto. }
  rewrite E, E2. unfold Rdiv. ring.
Qed.
(** the sizes and the imbalance exist at every point with a coefficient *)
Theorem C241_measured : forall k dxi x q dc, op k dxi x q = Ok dc ->
  (exists r, imbalance d cp cv nphi x q r) /\ forall y, exists g, gauge_of d cp cv (fe_U nphi q x) y g /\ 0 <= g /\ (g = 0 -> forall v, (v < 2 + d)%nat -> y v = 0).
Proof.
  intros k dxi x q dc H. destruct (op_value _ _ _ _ _ H) as (s & Es & _). split.
  - exists (r_at x q s), (fun c => mvec (2 + d) (Afn d cp cv s c) (fe_dU nphi q x c)). split; [intros; apply flux_rate; auto|reflexivity].
  - intros y. exists (quad d (B_at s) y). split; [apply (gauge_quad x q s); auto|].
    destruct (prim_init_ok _ _ _ _ _ _ G Es) as (E & HR & HT & _). assert (S : state d cp cv s) by (rewrite E; apply state_of).
    destruct (quad_pos s y S HR HT) as [QP [QZ _]]. auto.
Qed.
(** The coefficient is proportional to the scaling and to the inverse of the order. *)
Theorem C241_scales : forall k k' dxi x q dc dc', op k dxi x q = Ok dc -> op k' dxi x q = Ok dc' ->
  forall i, dc i * sk_scale k' * INR (sk_order k) = dc' i * sk_scale k * INR (sk_order k').
Proof.
  intros k k' dxi x q dc dc' H H' i. destruct (op_value _ _ _ _ _ H) as (s & Es & _ & HO & P & N & ->).
  destruct (op_value _ _ _ _ _ H') as (s' & Es' & _ & HO' & _ & _ & ->). rewrite Es in Es'. injection Es' as <-.
  destruct (Nat.ltb i d); [|ring]. apply lt_0_INR in HO. apply lt_0_INR in HO'. field. split; lra.
Qed.
(** What shock capturing adds to the residual of the interior never feeds the flow: its product with the unknowns is not negative. *)
Theorem C241_dissipates : forall k dxi h tau qps x f j f0 j0, 0 <= sk_scale k -> (forall q, In q qps -> 0 <= fq_w q) ->
  (forall q, In q qps -> op k dxi x q = Ok (h q x)) ->
  internal_residual d cp cv nphi tau (Some h) qps x = Ok (f, j) -> internal_residual d cp cv nphi tau None qps x = Ok (f0, j0) ->
  0 <= sum (d + 2) (fun v => sum nphi (fun a => x v a * (f v a - f0 v a))).
Proof.
  intros k dxi h tau qps x f j f0 j0 HS HW HH H H0.
  destruct (internal_sum d cp cv nphi D G tau (Some h) qps x f j H) as (_ & F & _). destruct (internal_sum d cp cv nphi D G tau None qps x f0 j0 H0) as (_ & F0 & _).
  assert (E : forall v a, f v a - f0 v a = tot (fun q => sum d (fun c => fq_w q * h q x c * (fq_dN q c a * fe_dU nphi q x c v))) qps).
  { intros v a. rewrite F, F0. 
    assert (T : forall l, tot (fun q => vol_f d cp cv nphi (tau q (state_at d cp cv nphi x q)) (dc_at (Some h) q x) x q (state_at d cp cv nphi x q) v a) l =
      tot (fun q => vol_f d cp cv nphi (tau q (state_at d cp cv nphi x q)) (dc_at None q x) x q (state_at d cp cv nphi x q) v a) l +
      tot (fun q => sum d (fun c => fq_w q * h q x c * (fq_dN q c a * fe_dU nphi q x c v))) l).
    { intros l. rewrite <- tot_plus. apply tot_ext. intros q _. unfold vol_f, dc_at.
      rewrite (sum_ext d (fun c => - (fq_w q * (fq_dN q c a * flux_fn d c (state_at d cp cv nphi x q) v)) + fq_w q * h q x c * (fq_dN q c a * fe_dU nphi q x c v))
        (fun c => (- (fq_w q * (fq_dN q c a * flux_fn d c (state_at d cp cv nphi x q) v)) + fq_w q * 0 * (fq_dN q c a * fe_dU nphi q x c v)) + fq_w q * h q x c * (fq_dN q c a * fe_dU nphi q x c v))) by (intros; ring).
      rewrite sum_plus. ring. }
    rewrite T. ring. }
  rewrite (sum_ext (d + 2) _ (fun v => tot (fun q => sum d (fun c => fq_w q * h q x c * (fe_dU nphi q x c v * fe_dU nphi q x c v))) qps)).
  - apply sum_nonneg. intros v _.
    assert (PQ : forall q, In q qps -> 0 <= sum d (fun c => fq_w q * h q x c * (fe_dU nphi q x c v * fe_dU nphi q x c v))).
    { intros q Hq. apply sum_nonneg. intros c _. apply Rmult_le_pos; [apply Rmult_le_pos; [auto|]|apply Rle_0_sqr].
      destruct (op_value _ _ _ _ _ (HH q Hq)) as (s & _ & _ & HO & _ & _ & ->). destruct (Nat.ltb c d); [|lra]. apply lt_0_INR in HO.
      apply Rmult_le_pos; [|left; apply Rinv_0_lt_compat; auto]. apply Rmult_le_pos; auto. apply sqrt_pos. }
    clear - PQ. induction qps as [|q l IH]; cbn [tot]; [lra|]. pose proof (PQ q (or_introl eq_refl)). assert (0 <= tot (fun q => sum d (fun c => fq_w q * h q x c * (fe_dU nphi q x c v * fe_dU nphi q x c v))) l) by (apply IH; intros; apply PQ; right; auto). lra.
  - intros v _. rewrite (sum_ext nphi _ (fun a => tot (fun q => sum d (fun c => fq_w q * h q x c * (x v a * fq_dN q c a * fe_dU nphi q x c v))) qps)).
    + rewrite tot_sum. apply tot_ext. intros q _. rewrite sum_swap. apply sum_ext. intros c _.
      rewrite (sum_ext nphi _ (fun a => fq_w q * h q x c * fe_dU nphi q x c v * (fq_dN q c a * x v a))) by (intros; ring). rewrite sum_scal_l. change (sum nphi (fun a => fq_dN q c a * x v a)) with (fe_dU nphi q x c v). ring.
    + intros a _. rewrite E, <- tot_scal. apply tot_ext. intros q _. rewrite <- sum_scal_l. apply sum_ext. intros; ring.
Qed.
(** With the pressure switch there is never a coefficient, nor with elements of order zero. *)
Theorem C241_switch_refuted : forall k dxi x q, sk_switch k = true -> physical d cp cv nphi x [q] -> op k dxi x q = Fault AssertFailed.
Proof.
  intros k dxi x q HS P. pose proof (proj2 (good_iff d cp cv nphi G x q) (P q (or_introl eq_refl))) as E.
  destruct (op_closed k dxi x q _ E) as (_ & _ & _ & ->). rewrite HS. reflexivity.
Qed.
Theorem C241_refused : forall k dxi x q dc, op k dxi x q = Ok dc -> physical d cp cv nphi x [q] /\ sk_switch k = false /\ (0 < sk_order k)%nat.
Proof.
  intros k dxi x q dc H. destruct (op_value _ _ _ _ _ H) as (s & Es & HS & HO & _). split; auto.
  intros q' [<-|[]]. destruct (prim_init_ok _ _ _ _ _ _ G Es) as (E & HR & HT & _). unfold state_at. rewrite <- E. auto.
Qed.
End Props.

(** A gas at rest whose density and energy change along a line: the coefficient is positive. *)
Definition sq : fpt := mkFpt 1 (fun _ => 1/2) (fun _ a => match a with 0%nat => -1 | _ => 1 end) (fun _ => 0) (fun _ => 0).
Definition sx : evec := fun v a => match v with 1%nat => 0 | _ => match a with 0%nat => 1 | _ => 2 end end.
Example C241_witness : physical 1 2 1 2 sx [sq] /\
  (exists dc, shock_op 1 2 1 2 (mkShk false 1 1) (fun _ _ _ => 1) sx sq = Ok dc /\ 0 < dc 0%nat) /\
  (exists h f f0, (forall q, In q [sq] -> shock_op 1 2 1 2 (mkShk false 1 1) (fun _ _ _ => 1) sx q = Ok (h q sx)) /\
     internal_residual 1 2 1 2 (fun _ _ => mx0) (Some h) [sq] sx = Ok f /\ internal_residual 1 2 1 2 (fun _ _ => mx0) None [sq] sx = Ok f0) /\
  ~ steady_at 1 2 1 2 sx sq.
Proof.
  assert (D : valid_dim 1) by (left; reflexivity). assert (G : 0 < 1 < 2) by lra.
  assert (P : physical 1 2 1 2 sx [sq]).
  { intros q [<-|[]]. unfold state_at, fe_U, sx, sq. cbn. split; [lra|]. unfold Rdiv. rewrite Rmult_0_r, !Rplus_0_l.
    match goal with |- 0 < ?e => replace e with 1 by field end. lra. }
  pose proof (proj2 (good_iff 1 2 1 2 G sx sq) (P sq (or_introl eq_refl))) as E.
  destruct (C241_runs 1 2 1 2 D G (mkShk false 1 1) (fun _ _ _ => 1) sx sq P eq_refl ltac:(cbn; lia)) as (dc & Ed & _ & Nn).
  assert (NZ : ~ steady_at 1 2 1 2 sx sq).
  { rewrite <- (C241_consistent 1 2 1 2 D G (mkShk false 1 1) (fun _ _ _ => 1) sx sq dc Ed ltac:(cbn; lra)).
    destruct (op_value 1 2 1 2 D G _ _ _ _ _ Ed) as (s & Es & _ & _ & HP & HN & ->). intros Z. specialize (Z 0%nat ltac:(lia)). cbn [Nat.ltb Nat.leb sk_scale sk_order INR] in Z.
    rewrite Rmult_1_r in Z. unfold Rdiv in Z at 1. rewrite Rinv_1, Rmult_1_r in Z. apply sqrt_eq_0 in Z; auto.
    assert (Q : quad 1 (dvu_fn 1 1 (2 / 1) s) (r_at 1 2 1 2 sx sq s) = 0).
    { apply Rmult_integral in Z. destruct Z as [Z|Z]; auto. pose proof (Rinv_neq_0_compat _ (Rgt_not_eq _ _ HP)). contradiction. }
    destruct (prim_init_ok _ _ _ _ _ _ G Es) as (E1 & HR & HT & _). assert (S : state 1 2 1 s) by (rewrite E1; apply state_of).
    pose proof (proj1 (proj2 (quad_pos 1 2 1 D G s (r_at 1 2 1 2 sx sq s) S HR HT)) Q 1%nat ltac:(lia)) as K. rewrite E1 in K. revert K.
    unfold r_at, Afn, fe_dU, fe_U, sx, sq. ev4. cbn. intros K. field_simplify in K. lra. }
  split; [exact P|]. split; [|split; [|exact NZ]].
  - exists dc. split; auto. destruct (Nn ltac:(cbn; lra) 0%nat) as [|Z]; auto. exfalso. apply NZ.
    apply (C241_consistent 1 2 1 2 D G (mkShk false 1 1) (fun _ _ _ => 1) sx sq dc Ed ltac:(cbn; lra)). intros i Hi. destruct i; [auto|lia].
  - exists (fun _ _ => dc). destruct (proj2 (C184_runs 1 2 1 2 D G (fun _ _ => mx0) (Some (fun _ _ => dc)) [sq] sx) P) as (f & j & E1).
    destruct (proj2 (C184_runs 1 2 1 2 D G (fun _ _ => mx0) None [sq] sx) P) as (f0 & j0 & E0).
    exists (f, j), (f0, j0). split; [|split; auto]. intros q [<-|[]]. exact Ed.
Qed.
Print Assumptions C241_runs.
Print Assumptions C241_consistent.
Print Assumptions C241_uniform.
Print Assumptions C241_scales.
Print Assumptions C241_dissipates.
Print Assumptions C241_switch_refuted.
Print Assumptions C241_refused.
Print Assumptions C241_witness.
Print Assumptions C241_value.
Print Assumptions C241_measured.
