From Coq Require Import List Arith Bool Lia Reals Lra FunctionalExtensionality.
From Verif Require Import Base BaseLemmas RBool Stre_Proofs Stre_Proofs2 Flui_Model Flui_Spec Flui_Proofs Flui_Proofs2 Flui_Props Cfe_Model Fdf_Model Fdf_Spec Fdf_Proofs.
Import ListNotations.
Open Scope R_scope.

Section P2.
Variables (d : nat) (cp cv : R) (nphi : nat).
Notation mul := (emul d nphi).
Notation wp := (wall_point d cp cv).
Definition vz : vec := fun _ => 0.

(** steady part of the condition only *)
Definition still (b : fslip) : fslip := mkFs (fs_vel b) (fs_rot b) (fs_disp b) None None.
Lemma pert_zero s : valid_dim d -> d_p (pert_of d cp cv false s vz) = 0 /\ forall i, duvec d (pert_of d cp cv false s vz) i = 0.
Proof.
  intros D; split; [dims D; cbn; unfold vz, Rdiv; ring|]. intros i. dims D; destruct i as [|[|[|]]]; cbn; unfold vz, Rdiv; ring.
Qed.
Lemma edot_rr a b : edot (rv a) (rv b) = (dot3 a b, 0).
Proof. unfold edot, rv, dot3; cbn. f_equal; ring. Qed.
(** the parts of the flux: what the motion of the wall gives, and what the state gives *)
Lemma wall_split bV om b q U s dU v : valid_dim d ->
  fst (wp bV om b q U s dU) v = fst (wp bV om b q U s (vz, vz)) v + fst (wp bV om (still b) q U s (fst dU, vz)) v /\
  snd (wp bV om b q U s dU) v = snd (wp bV om b q U s (vz, vz)) v + fst (wp bV om (still b) q U s (snd dU, vz)) v +
    2 * bV * dot3 (duvec d (pert_of d cp cv false s (snd dU))) (at_pt (fs_rot b) q) * (U v + if Nat.eqb v (d + 1) then p_p s else 0).
Proof.
  intros D. destruct (pert_zero s D) as [P0 D0].
  unfold wall_point. cbv zeta. cbn [fst snd].
  change (wall_speed0 d (still b) q s) with (wall_speed0 d b q s). change (fs_rot (still b)) with (fs_rot b). change (fs_vel (still b)) with (fs_vel b).
  assert (Z : forall a, edot (rv a) (wall_dn (still b) q) = (0, 0)) by (intros; unfold wall_dn, still; cbn [fs_dw]; unfold edot, rv; cbn; f_equal; ring).
  assert (Z' : forall a, edot (wall_dw (still b) q) (rv a) = (0, 0)) by (intros; unfold wall_dw, still; cbn [fs_dw at_c]; unfold edot, rv; cbn; f_equal; ring).
  rewrite !Z, !Z'. cbn [fst snd]. rewrite !P0.
  assert (C0 : edot (duvec d (pert_of d cp cv false s vz), duvec d (pert_of d cp cv false s vz)) (rv (at_pt (fs_rot b) q)) = (0, 0)).
  { unfold edot, rv; cbn [fst snd sum]. rewrite !D0. f_equal; ring. }
  assert (C1 : forall V, edot (duvec d (pert_of d cp cv false s V), duvec d (pert_of d cp cv false s vz)) (rv (at_pt (fs_rot b) q)) =
    (dot3 (duvec d (pert_of d cp cv false s V)) (at_pt (fs_rot b) q), 0)).
  { intros V. unfold edot, rv, dot3; cbn [fst snd sum]. rewrite !D0. f_equal; ring. }
  assert (C2 : forall V W, edot (duvec d (pert_of d cp cv false s V), duvec d (pert_of d cp cv false s W)) (rv (at_pt (fs_rot b) q)) =
    (dot3 (duvec d (pert_of d cp cv false s V)) (at_pt (fs_rot b) q), - dot3 (duvec d (pert_of d cp cv false s W)) (at_pt (fs_rot b) q))).
  { intros V W. unfold edot, rv, dot3; cbn [fst snd sum]. f_equal; ring. }
  rewrite C0, !C1, C2. cbn [fst snd]. unfold vz.
  split; destruct (Nat.eqb v (d + 1)), (Nat.ltb 0 v && Nat.leb v d)%bool; ring.
Qed.

(** the real flux of the state is the matrix times the state *)
Lemma flux_steady bV q b U v : valid_dim d -> 0 < cv < cp -> U 0%nat <> 0 -> (v < 2 + d)%nat -> 
  moving_flux d bV (pad d (fq_n q)) (at_pt (fs_vel b) q) vz (at_pt (fs_rot b) q) (prim_of d cp cv false U) U v =
  bV * wall_flux d (dot3 (at_pt (fs_vel b) q) (vplus (pad d (fq_n q)) (at_pt (fs_rot b) q))) (fq_n q) (at_pt (fs_rot b) q) (prim_of d cp cv false U) v.
Proof.
  intros D G H Hv. unfold moving_flux, wall_flux. cbv zeta.
  assert (Z : forall a, dot3 vz a = 0) by (intros; unfold dot3, vz; cbn; ring). rewrite Z.
  assert (E : dot3 (uvec d (prim_of d cp cv false U)) (at_pt (fs_rot b) q) =
    sum d (fun i => match i with 0%nat => p_u1 (prim_of d cp cv false U) | 1%nat => p_u2 (prim_of d cp cv false U) | _ => p_u3 (prim_of d cp cv false U) end * at_pt (fs_rot b) q i)).
  { unfold dot3. dims D; cbn [sum uvec Nat.ltb Nat.leb]; ring. }
  rewrite E. set (w := dot3 _ (vplus _ _)). set (S := sum d _). clearbody w S. revert v Hv.
  dims D; intros v Hv; cbn [Nat.add]; (destruct v as [|[|[|[|[|]]]]]; [..|lia]); try lia; cbn; field; repeat split; auto; lra.
Qed.
Lemma wall_matrix_real bV om b q U s V v : valid_dim d -> 0 < cv < cp -> prim_init d cp cv false U = Ok s -> (v < 2 + d)%nat ->
  exists J, wall_jac d (cp - cv) cv s (wall_speed0 d b q s) (fq_n q) (at_pt (fs_rot b) q) = Ok J /\
    fst (wp bV om (still b) q U s (V, vz)) v = bV * mvec (2 + d) J V v.
Proof.
  intros D G HI Hv.
  set (Ue := fun e i => U i + e * V i).
  assert (FO : follows Ue 0 V) by (intros i; apply lin_rate).
  assert (U0 : Ue 0 = U) by (apply functional_extensionality; intros i; unfold Ue; ring).
  pose proof (prim_init_ok _ _ _ _ _ _ G HI) as (Es & HR & _).
  assert (HI' := HI). rewrite <- U0 in HI'.
  set (w := dot3 (at_pt (fs_vel b) q) (vplus (pad d (fq_n q)) (at_pt (fs_rot b) q))).
  destruct (moving_wall_jacobian d cp cv false D G Ue 0 V s w (fq_n q) (at_pt (fs_rot b) q) FO HI') as (J & EJ & HJ).
  exists J. split.
  - rewrite <- EJ. f_equal. unfold wall_speed0. fold w. f_equal. unfold dot3. dims D; cbn [sum uvec Nat.ltb Nat.leb]; ring.
  - pose proof (wall_rate d cp cv bV om (still b) q U s (V, vz) 0 v D G HI ltac:(lia)) as W.
    assert (X := derivable_pt_lim_scal _ bV _ _ (HJ v Hv)). unfold mult_real_fct in X.
    assert (Y : derivable_pt_lim (fun e => bV * wall_flux d w (fq_n q) (at_pt (fs_rot b) q) (prim_of d cp cv false (Ue e)) v) 0
      (at_phase (fst (wp bV om (still b) q U s (V, vz)) v) (snd (wp bV om (still b) q U s (V, vz)) v) 0 +
       phase_error d cp cv bV om (still b) q s (V, vz) 0 * (U v + if Nat.eqb v (d + 1) then p_p s else 0))).
    { eapply deriv_ext; [|exact W].
      destruct (deriv_cont _ _ _ (U 0%nat) (FO 0%nat)) as (dl & Dp & Hd); [rewrite Es in HR; exact HR|].
      exists dl. split; [exact Dp|]. intros t Ht. specialize (Hd t Ht). cbv beta in Hd.
      assert (P0 : Ue t 0%nat <> 0).
      { rewrite U0 in Hd. apply Rabs_def2 in Hd. rewrite Es in HR. cbn in HR. lra. }
      unfold w. rewrite <- flux_steady by auto.
      replace (fun i => 0 + t * swing om (wall_dw (still b) q) 0 i) with vz.
      2:{ apply functional_extensionality; intros i. unfold wall_dw, still, swing, at_phase; cbn. unfold vz. ring. }
      replace (fun i => at_pt (fs_rot (still b)) q i + t * turned (wall_dn (still b) q) 0 i) with (at_pt (fs_rot b) q).
      2:{ apply functional_extensionality; intros i. unfold wall_dn, still, turned, at_phase; cbn. ring. }
      replace (fun i => U i + t * turned (V, vz) 0 i) with (Ue t).
      2:{ apply functional_extensionality; intros i. unfold Ue, turned, at_phase; cbn. rewrite cos_0, sin_0. ring. }
      reflexivity. }
    pose proof (uniqueness_limite _ _ _ _ Y X) as E.
    rewrite <- E. unfold at_phase, phase_error. rewrite cos_0, sin_0.
    replace (dot3 (snd (wall_dw (still b) q)) (vplus (pad d (fq_n q)) (at_pt (fs_rot (still b)) q))) with 0; [ring|].
    unfold wall_dw, still, dot3; cbn. ring.
Qed.

(** over the points of a side *)
Definition lsumq (g : fpt -> R) (l : list fpt) : R := fold_right Rplus 0 (map g l).
Definition state_of_pt (x : evec) (q : fpt) : prim := prim_of d cp cv false (fe_U nphi q x).
Lemma wall_over bV om asked b x z qps : 0 < cv < cp -> forall acc r, over (wall_step d cp cv nphi bV om asked b x z) qps acc = Ok r ->
  Forall (fun q => prim_init d cp cv false (fe_U nphi q x) = Ok (state_of_pt x q)) qps /\
  (forall v a, fst (fst r) v a = fst (fst acc) v a +
     lsumq (fun q => fq_w q * (fq_N q a * fst (wp bV om b q (fe_U nphi q x) (state_of_pt x q) (fe_U nphi q (fst z), fe_U nphi q (snd z))) v)) qps) /\
  (forall v a, snd (fst r) v a = snd (fst acc) v a +
     lsumq (fun q => fq_w q * (fq_N q a * snd (wp bV om b q (fe_U nphi q x) (state_of_pt x q) (fe_U nphi q (fst z), fe_U nphi q (snd z))) v)) qps) /\
  (asked = true -> forall v a v' a', fst (snd r) v a v' a' = fst (snd acc) v a v' a' +
     lsumq (fun q => fq_w q * bV * (fq_N q a * (match wall_jac d (cp - cv) cv (state_of_pt x q) (wall_speed0 d b q (state_of_pt x q)) (fq_n q) (at_pt (fs_rot b) q) with Ok J => J v v' | _ => 0 end) * fq_N q a')) qps) /\
  (asked = false -> fst (snd r) = fst (snd acc)) /\ snd (snd r) = snd (snd acc).
Proof.
  intros G. induction qps as [|q qps IH]; intros acc r H.
  - cbn in H. injection H as <-. unfold lsumq; cbn. repeat split; intros; try ring. constructor.
  - cbn [over] in H. destruct (wall_step _ _ _ _ _ _ _ _ _ _ q acc) as [a|] eqn:E; [|discriminate]. cbn [bind] in H.
    unfold wall_step in E. destruct (prim_init d cp cv false (fe_U nphi q x)) as [s|] eqn:EI; [|discriminate]. cbn [bind] in E.
    pose proof (prim_init_ok _ _ _ _ _ _ G EI) as (Es & _).
    assert (Es' : s = state_of_pt x q) by exact Es.
    destruct (IH a r H) as (F & B1 & B2 & B3 & B4 & B5).
    assert (Q : fst a = (add_vec (fq_w q) (fq_N q) (fst (wp bV om b q (fe_U nphi q x) s (fe_U nphi q (fst z), fe_U nphi q (snd z)))) (fst (fst acc)),
                         add_vec (fq_w q) (fq_N q) (snd (wp bV om b q (fe_U nphi q x) s (fe_U nphi q (fst z), fe_U nphi q (snd z)))) (snd (fst acc))) /\
      snd (snd a) = snd (snd acc) /\ (asked = false -> fst (snd a) = fst (snd acc)) /\
      (asked = true -> forall v k v' k', fst (snd a) v k v' k' = fst (snd acc) v k v' k' + fq_w q * bV * (fq_N q k * (match wall_jac d (cp - cv) cv s (wall_speed0 d b q s) (fq_n q) (at_pt (fs_rot b) q) with Ok J => J v v' | _ => 0 end) * fq_N q k'))).
    { destruct asked.
      - destruct (wall_jac _ _ _ _ _ _ _) as [J|]; [|discriminate]. cbn [bind] in E. injection E as <-. repeat split; intros; try discriminate; reflexivity.
      - injection E as <-. repeat split; intros; try discriminate; reflexivity. }
    destruct Q as (Q1 & Q2 & Q3 & Q4). rewrite Q1 in B1, B2. cbn [fst snd] in B1, B2.
    split; [constructor; [rewrite EI, <- Es'; reflexivity|exact F]|].
    unfold lsumq in *. cbn [map fold_right]. rewrite Es' in *. repeat split; intros.
    + rewrite B1. unfold add_vec. ring.
    + rewrite B2. unfold add_vec. ring.
    + rewrite B3, Q4 by auto. ring.
    + rewrite B4, Q3 by auto. reflexivity.
    + rewrite B5, Q2. reflexivity.
Qed.
End P2.
