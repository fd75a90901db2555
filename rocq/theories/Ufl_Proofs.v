From Coq Require Import Reals List Arith Lia Lra Bool Permutation Sorted.
From Verif Require Import Base BaseLemmas Flut_Model Flut_Spec Flut_Proofs Flut_Proofs3 Ufl_Model Ufl_Spec.
Import ListNotations.
Open Scope R_scope.

(** ** the roots *)
Lemma cnz_true a : cnz a = true <-> a <> c0.
Proof.
  unfold cnz, c0. destruct a as [x y]; cbn [fst snd]. destruct (Req_EM_T x 0) as [Hx|Hx]; [destruct (Req_EM_T y 0) as [Hy|Hy]|]; split; intros H; try congruence; try discriminate; try reflexivity.
Qed.
Lemma cdiv_mul num den : den <> c0 -> cmul (cdiv num den) den = num.
Proof. intros H. unfold cdiv. transitivity (cmul num (cmul den (cinv den))); [ring|]. rewrite cmul_inv_r by auto. ring. Qed.
Lemma cmul_cancel a x y : a <> c0 -> cmul a x = cmul a y -> x = y.
Proof.
  intros H E. assert (X : forall z, z = cmul (cinv a) (cmul a z)).
  { intros z. transitivity (cmul (cmul a (cinv a)) z); [rewrite cmul_inv_r by auto; ring|ring]. }
  rewrite (X x), (X y), E. reflexivity.
Qed.
Lemma csum_scal n r f : csum n (fun i => cscal r (f i)) = cscal r (csum n f).
Proof.
  rewrite (csum_ext n _ (fun i => cmul (r, 0) (f i))) by (intros; apply cscal_mul). rewrite csum_mul_l. symmetry. apply cscal_mul.
Qed.
Lemma ug_A_mv n kr b rho m a q i : cmv n (ug_A kr b rho m a) q i =
  csub (cscal ((kr / b) ^ 2) (csum n (fun j => cscal (m i j) (q j)))) (cscal (rho / 2) (csum n (fun j => cmul (a i j) (q j)))).
Proof.
  unfold cmv, ug_A. rewrite <- !csum_scal, <- csum_sub. apply csum_ext. intros j _. generalize ((kr / b) ^ 2), (rho / 2), (m i j), (a i j), (q j). cring.
Qed.
Lemma ug_B_mv n k q i : cmv n (ug_B k) q i = csum n (fun j => cscal (k i j) (q j)).
Proof. unfold cmv, ug_B. apply csum_ext. intros j _. generalize (k i j), (q j). cring. Qed.

Lemma physical_harmonic n kr b rho m k a num den q : b <> 0 -> den <> c0 ->
  eigenpair n (ug_A kr b rho m a) (ug_B k) num den q -> k_bad (ug_root kr b num den) = false ->
  let r := ug_root kr b num den in
  0 < k_V r /\ k_om r * b = k_kr r * k_V r /\ k_kr r = kr /\ harmonic n rho m k a (k_om r) (k_V r) (k_g r) q.
Proof.
  intros Hb Hd He Hbad. cbv zeta. unfold ug_root in *. rewrite (proj2 (cnz_true den) Hd) in *.
  assert (El := cdiv_mul num den Hd). set (l := cdiv num den) in *. cbv zeta in *.
  destruct (rlt_spec 0 (fst l)) as [Hp|Hp]; [|discriminate]. cbn [k_V k_om k_kr k_g] in *. clear Hbad.
  assert (Hi : 0 < 1 / fst l) by (unfold Rdiv; rewrite Rmult_1_l; apply Rinv_0_lt_compat; auto).
  assert (HV : 0 < sqrt (1 / fst l)) by (apply sqrt_lt_R0; auto).
  assert (HV2 : sqrt (1 / fst l) * sqrt (1 / fst l) = 1 / fst l) by (apply sqrt_sqrt; lra).
  set (V := sqrt (1 / fst l)) in *. split; [auto|]. split; [field; auto|]. split; [auto|].
  intros i Hi'. assert (X := He i Hi'). rewrite <- El in X.
  assert (Y : cmv n (ug_A kr b rho m a) q i = cmul l (cmv n (ug_B k) q i)).
  { apply (cmul_cancel den); auto. rewrite X. ring. }
  rewrite ug_A_mv, ug_B_mv in Y.
  set (Sm := csum n _) in *. set (Sa := csum n (fun j => cmul (a i j) (q j))) in *. set (Sk := csum n (fun j => cscal (k i j) (q j))) in *.
  clearbody Sm Sa Sk. clear X He El. destruct Sm as [m1 m2], Sa as [a1 a2], Sk as [k1 k2], l as [lr li].
  unfold csub, cscal, cmul, cadd in *. cbn [fst snd] in *. injection Y as Y1 Y2.
  assert (Hv : V ^ 2 = 1 / lr) by (simpl; lra).
  assert (Ho : (kr * V / b) ^ 2 = (kr / b) ^ 2 * (1 / lr)) by (rewrite <- Hv; field; auto).
  rewrite Ho, Hv. change (kr / b * (kr / b * 1)) with ((kr / b) ^ 2) in Y1, Y2. set (K := (kr / b) ^ 2) in *. clearbody K. clear HV HV2 Hv Ho V.
  assert (Q1 : K * m1 = lr * k1 - li * k2 + rho / 2 * a1) by lra.
  assert (Q2 : K * m2 = lr * k2 + li * k1 + rho / 2 * a2) by lra.
  f_equal.
  - replace (- (K * (1 / lr)) * m1) with (- (K * m1) / lr) by (field; lra). rewrite Q1. field. lra.
  - replace (- (K * (1 / lr)) * m2) with (- (K * m2) / lr) by (field; lra). rewrite Q2. field. lra.
Qed.
(** conversely every harmonic motion is found *)
Lemma harmonic_found n b rho m k a om V g q : b <> 0 -> 0 < V -> harmonic n rho m k a om V g q ->
  let kr := om * b / V in
  eigenpair n (ug_A kr b rho m a) (ug_B k) (1 / V ^ 2, g / V ^ 2) (1, 0) q /\
  ug_root kr b (1 / V ^ 2, g / V ^ 2) (1, 0) = mkKr kr V g om false (1 / V ^ 2, g / V ^ 2).
Proof.
  intros Hb HV Hh kr. assert (HV2 : 0 < V ^ 2) by (apply pow_lt; auto). split.
  - intros i Hi. rewrite ug_A_mv, ug_B_mv. assert (X := Hh i Hi).
    set (Sm := csum n _) in *. set (Sa := csum n (fun j => cmul (a i j) (q j))) in *. set (Sk := csum n (fun j => cscal (k i j) (q j))) in *.
    clearbody Sm Sa Sk. destruct Sm as [m1 m2], Sa as [a1 a2], Sk as [k1 k2].
    unfold csub, cscal, cmul, cadd in *. cbn [fst snd] in *. injection X as X1 X2.
    assert (Hk : (kr / b) ^ 2 = om ^ 2 / V ^ 2) by (unfold kr; field; split; lra). rewrite Hk.
    change (om * (om * 1)) with (om ^ 2) in X1, X2. change (V * (V * 1)) with (V ^ 2) in X1, X2. set (O := om ^ 2) in *. set (W := V ^ 2) in *.
    f_equal.
    + replace (1 * (O / W * m1 - rho / 2 * a1) - 0 * (O / W * m2 - rho / 2 * a2)) with ((O * m1 - rho / 2 * W * a1) / W) by (field; lra).
      replace (O * m1 - rho / 2 * W * a1) with (1 * k1 - g * k2) by lra. field. lra.
    + replace (1 * (O / W * m2 - rho / 2 * a2) + 0 * (O / W * m1 - rho / 2 * a1)) with ((O * m2 - rho / 2 * W * a2) / W) by (field; lra).
      replace (O * m2 - rho / 2 * W * a2) with (1 * k2 + g * k1) by lra. field. lra.
  - assert (Hc : cnz (1, 0) = true) by (apply cnz_true; unfold c0; intros E; inversion E; lra).
    assert (Hd : cdiv (1 / V ^ 2, g / V ^ 2) (1, 0) = (1 / V ^ 2, g / V ^ 2)).
    { apply cdiv_unique; [unfold c0; intros E; inversion E; lra|]. unfold cmul; simpl fst; simpl snd. f_equal; field; lra. }
    unfold ug_root. rewrite Hc, Hd. cbv zeta. cbn [fst snd].
    assert (P : 0 < 1 / V ^ 2) by (apply Rdiv_lt_0_compat; lra).
    destruct (rlt_spec 0 (1 / V ^ 2)); [|lra].
    assert (S : sqrt (1 / (1 / V ^ 2)) = V).
    { replace (1 / (1 / V ^ 2)) with (V * V) by (field; lra). apply sqrt_square. lra. }
    rewrite S. f_equal; unfold kr; field; repeat split; lra.
Qed.

(** ** eigenvalue sensitivity for complex matrices *)
Lemma cleft n (A B : cmat) eig xl z :
  (forall j, (j < n)%nat -> csum n (fun i => cmul (conj (xl i)) (A i j)) = cmul eig (csum n (fun i => cmul (conj (xl i)) (B i j)))) ->
  cdot n xl (cmv n A z) = cmul eig (cdot n xl (cmv n B z)).
Proof.
  intros HL. assert (X : forall M, cdot n xl (cmv n M z) = csum n (fun j => cmul (csum n (fun i => cmul (conj (xl i)) (M i j))) (z j))).
  { intros M. unfold cdot, cmv. rewrite (csum_ext n _ (fun i => csum n (fun j => cmul (cmul (conj (xl i)) (M i j)) (z j)))).
    - rewrite csum_swap. apply csum_ext. intros j _. apply csum_mul_r.
    - intros i _. rewrite <- csum_mul_l. apply csum_ext. intros j _. ring. }
  rewrite !X. rewrite <- csum_mul_l. apply csum_ext. intros j Hj. rewrite HL by auto. ring.
Qed.
Lemma cderiv_cmv n (M : R -> cmat) (x : R -> cvec) p (dM : cmat) (dx : cvec) i :
  (forall j, (j < n)%nat -> cderiv (fun t => M t i j) p (dM i j)) -> (forall j, (j < n)%nat -> cderiv (fun t => x t j) p (dx j)) ->
  cderiv (fun t => cmv n (M t) (x t) i) p (cadd (cmv n dM (x p) i) (cmv n (M p) dx i)).
Proof.
  intros HM Hx. unfold cmv. rewrite <- csum_add. apply (cderiv_sum n (fun t j => cmul (M t i j) (x t j)) p). intros j Hj.
  apply (cderiv_mul (fun t => M t i j) (fun t => x t j)); auto.
Qed.
Lemma ug_eig_derivative n (A B : R -> cmat) (eig : R -> cpx) (x : R -> cvec) xl p (dA dB : cmat) deig dx :
  (forall i j, (i < n)%nat -> (j < n)%nat -> cderiv (fun t => A t i j) p (dA i j)) ->
  (forall i j, (i < n)%nat -> (j < n)%nat -> cderiv (fun t => B t i j) p (dB i j)) ->
  cderiv eig p deig -> (forall j, (j < n)%nat -> cderiv (fun t => x t j) p (dx j)) ->
  (forall t i, (i < n)%nat -> cmv n (A t) (x t) i = cmul (eig t) (cmv n (B t) (x t) i)) ->
  (forall j, (j < n)%nat -> csum n (fun i => cmul (conj (xl i)) (A p i j)) = cmul (eig p) (csum n (fun i => cmul (conj (xl i)) (B p i j)))) ->
  cdot n xl (cmv n (B p) (x p)) <> c0 ->
  ug_eig_sens n (B p) dA dB (eig p) xl (x p) = deig.
Proof.
  intros HA HB He Hx HR HL Hn. unfold ug_eig_sens. apply cdiv_unique; auto.
  assert (HD : forall i, (i < n)%nat -> csub (cmv n dA (x p) i) (cmul (eig p) (cmv n dB (x p) i)) =
     cadd (cmul deig (cmv n (B p) (x p) i)) (csub (cmul (eig p) (cmv n (B p) dx i)) (cmv n (A p) dx i))).
  { intros i Hi. assert (D1 := cderiv_cmv n A x p dA dx i (fun j Hj => HA i j Hi Hj) Hx).
    assert (D2 := cderiv_cmv n B x p dB dx i (fun j Hj => HB i j Hi Hj) Hx).
    assert (D3 := cderiv_mul _ _ _ _ _ He D2).
    apply (cderiv_ext _ (fun t => cmv n (A t) (x t) i)) in D3; [|intros; symmetry; apply HR; auto].
    assert (E := cderiv_unique _ _ _ _ D1 D3).
    transitivity (csub (csub (cadd (cmv n dA (x p) i) (cmv n (A p) dx i)) (cmv n (A p) dx i)) (cmul (eig p) (cmv n dB (x p) i))); [ring|].
    rewrite E. ring. }
  transitivity (cdot n xl (fun i => cadd (cmul deig (cmv n (B p) (x p) i)) (csub (cmul (eig p) (cmv n (B p) dx i)) (cmv n (A p) dx i)))).
  2: { apply csum_ext. intros i Hi. now rewrite HD. }
  assert (L := cleft n (A p) (B p) (eig p) xl dx HL). unfold cdot in *.
  rewrite (csum_ext n (fun i => cmul (conj (xl i)) (cadd (cmul deig (cmv n (B p) (x p) i)) (csub (cmul (eig p) (cmv n (B p) dx i)) (cmv n (A p) dx i))))
    (fun i => cadd (cmul deig (cmul (conj (xl i)) (cmv n (B p) (x p) i))) (csub (cmul (eig p) (cmul (conj (xl i)) (cmv n (B p) dx i))) (cmul (conj (xl i)) (cmv n (A p) dx i)))))
    by (intros; ring).
  rewrite csum_add, csum_sub, !csum_mul_l. rewrite L. ring.
Qed.
Lemma cderiv_real (f : R -> R) p d : derivable_pt_lim f p d -> cderiv (fun t => (f t, 0)) p (d, 0).
Proof. intros H. split; simpl; [exact H|apply (derivable_pt_lim_const 0 p)]. Qed.
Lemma cderiv_scal r (f : R -> cpx) p d : cderiv f p d -> cderiv (fun t => cscal r (f t)) p (cscal r d).
Proof. intros (H1 & H2). split; simpl; [apply (derivable_pt_lim_scal (fun t => fst (f t)))|apply (derivable_pt_lim_scal (fun t => snd (f t)))]; auto. Qed.
Lemma ug_A_param_derivative kr b rho (m : R -> rmat) (a : cmat) p dm i j :
  derivable_pt_lim (fun t => m t i j) p (dm i j) -> cderiv (fun t => ug_A kr b rho (m t) a i j) p (ug_A_param kr b rho dm i j).
Proof.
  intros H. unfold ug_A_param, ug_A. apply (cderiv_add (fun t => cscal ((kr / b) ^ 2) (m t i j, 0)) (fun _ => cscal (rho / 2) (cscal (-1) (a i j)))).
  - apply (cderiv_scal _ (fun t => (m t i j, 0))). apply cderiv_real. exact H.
  - replace (cscal (rho / 2) (cscal (-1) (0, 0))) with c0; [apply cderiv_const|]. unfold cscal, c0; simpl. f_equal; ring.
Qed.
Lemma ug_A_kr_derivative kr b rho m (a : R -> cmat) da i j : b <> 0 ->
  cderiv (fun t => a t i j) kr (da i j) -> cderiv (fun t => ug_A t b rho m (a t) i j) kr (ug_A_kr kr b rho m da i j).
Proof.
  intros Hb H. unfold ug_A_kr, ug_A. apply (cderiv_add (fun t => cscal ((t / b) ^ 2) (m i j, 0)) (fun t => cscal (rho / 2) (cscal (-1) (a t i j)))).
  - split; simpl.
    + replace (2 * kr * / (b * (b * 1)) * m i j) with ((1 * / b * (kr / b * 1) + kr / b * (1 * / b)) * m i j + (kr / b * (kr / b * 1)) * 0) by (field; auto).
      apply (derivable_pt_lim_mult (fun t => t / b * (t / b * 1)) (fun _ => m i j)); [|apply (derivable_pt_lim_const (m i j))].
      assert (D : derivable_pt_lim (fun t => t / b) kr (1 * / b)).
      { replace (1 * / b) with (1 * / b + kr * 0) by ring. apply (derivable_pt_lim_mult (fun t => t) (fun _ => / b)); [apply derivable_pt_lim_id|apply (derivable_pt_lim_const (/ b))]. }
      apply (derivable_pt_lim_mult (fun t => t / b) (fun t => t / b * 1)); [exact D|].
      replace (1 * / b) with (1 * / b * 1 + kr / b * 0) by ring. apply (derivable_pt_lim_mult (fun t => t / b) (fun _ => 1)); [exact D|apply (derivable_pt_lim_const 1)].
    + apply (dpl_ext (fun _ => 0)); [intros; ring|]. replace (2 * kr * / (b * (b * 1)) * 0) with 0 by ring. apply (derivable_pt_lim_const 0).
  - apply (cderiv_scal _ (fun t => cscal (-1) (a t i j))). apply (cderiv_scal _ (fun t => a t i j)). exact H.
Qed.
