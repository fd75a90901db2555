From Coq Require Import List Arith Bool Lia Reals Lra FunctionalExtensionality.
From Verif Require Import Base BaseLemmas RBool Stre_Proofs Stre_Proofs2 Flui_Model Flui_Spec Flui_Proofs Flui_Proofs2 Flui_Props Cfe_Model Fdf_Model Fdf_Spec.
Import ListNotations.
Open Scope R_scope.

Section P.
Variables (d : nat) (cp cv : R) (nphi : nat).
Notation mul := (emul d nphi).

Lemma emul_scale c J z v k : mul (em_scale c J) z v k = c * mul J z v k.
Proof.
  unfold emul, em_scale. rewrite <- sum_scal_l. apply sum_ext; intros i _. rewrite <- sum_scal_l. apply sum_ext; intros j _. ring.
Qed.
Lemma emul_zero z v k : mul em0 z v k = 0.
Proof. unfold emul, em0. apply sum_0; intros i _. apply sum_0; intros j _. ring. Qed.
Lemma emul_lin a b J y z v k : mul J (fun i j => a * y i j + b * z i j) v k = a * mul J y v k + b * mul J z v k.
Proof.
  unfold emul. rewrite <- !sum_scal_l, <- sum_plus. apply sum_ext; intros i _. rewrite <- !sum_scal_l, <- sum_plus. apply sum_ext; intros j _. ring.
Qed.
Lemma emul_ext J y z v k : (forall i j, y i j = z i j) -> mul J y v k = mul J z v k.
Proof. intros H. unfold emul. apply sum_ext; intros i _. apply sum_ext; intros j _. now rewrite H. Qed.
Lemma emul_mext J K z v k : (forall i j i' j', J i j i' j' = K i j i' j') -> mul J z v k = mul K z v k.
Proof. intros H. unfold emul. apply sum_ext; intros i _. apply sum_ext; intros j _. now rewrite H. Qed.

Lemma fd_internal_inv fr asked tau shock qps x z acc r : fd_internal d cp cv nphi fr asked tau shock qps x z acc = Ok r ->
  exists f b fK K fM M M', fr = Some f /\ ff_factor f = Ok b /\ internal_residual d cp cv nphi tau shock qps x = Ok (fK, K) /\
    velocity_residual d cp cv nphi tau qps x ev0 = Ok (fM, M, M') /\
    r = (c_add (fst acc) (cmul d nphi (em_scale b (em_add K M'), em_scale (ff_om f) M) z),
         if asked then cm_add (snd acc) (em_scale b (em_add K M'), em_scale (ff_om f) M) else snd acc).
Proof.
  unfold fd_internal, fd_matrices. destruct fr as [f|]; [|discriminate]. destruct (ff_factor f) as [b|] eqn:Eb; [|discriminate]. cbn [bind].
  destruct (internal_residual _ _ _ _ _ _ _ _) as [[fK K]|] eqn:EK; [|discriminate]. cbn [bind].
  destruct (velocity_residual _ _ _ _ _ _ _ _) as [[[fM M] M']|] eqn:EM; [|discriminate]. cbn [bind fst snd]. intros [= <-].
  exists f, b, fK, K, fM, M, M'. repeat split; auto.
Qed.
Lemma rate_frozen tau qps x xd f j j' : velocity_residual d cp cv nphi tau qps x xd = Ok (f, j, j') -> j' = em0.
Proof. unfold velocity_residual. destruct (over _ _ _) as [[g h]|]; [|discriminate]. cbn. now intros [= _ _ <-]. Qed.
Lemma em_add_0 K : em_add K em0 = K.
Proof. repeat (apply functional_extensionality; intros ?). unfold em_add, em0. ring. Qed.

(** the real part of (b K + i om M) z e^(ip) *)
Lemma phase_product b om K M z p v k :
  at_phase (fst (cmul d nphi (em_scale b K, em_scale om M) z) v k) (snd (cmul d nphi (em_scale b K, em_scale om M) z) v k) p =
  b * mul K (moving_at z p) v k + mul M (fun i j => - om * (fst z i j * sin p + snd z i j * cos p)) v k.
Proof.
  unfold at_phase, cmul; cbn [fst snd]. rewrite !emul_scale.
  rewrite (emul_ext K (moving_at z p) (fun i j => cos p * fst z i j + (- sin p) * snd z i j)) by (intros; unfold moving_at, at_phase; ring).
  rewrite (emul_ext M (fun i j => - om * (fst z i j * sin p + snd z i j * cos p)) (fun i j => (- om * sin p) * fst z i j + (- om * cos p) * snd z i j)) by (intros; ring).
  rewrite !emul_lin. ring.
Qed.
Lemma phase_rate a b om t : derivable_pt_lim (fun t => at_phase a b (om * t)) t (- om * (a * sin (om * t) + b * cos (om * t))).
Proof.
  unfold at_phase.
  assert (L : derivable_pt_lim (fun t => om * t) t om).
  { eapply deriv_eq; [|apply (derivable_pt_lim_scal id om t 1 (derivable_pt_lim_id t))]. ring. }
  eapply deriv_eq; [|apply derivable_pt_lim_minus; apply derivable_pt_lim_scal;
    [apply (deriv_comp cos (fun t => om * t)); [exact L|apply derivable_pt_lim_cos]|apply (deriv_comp sin (fun t => om * t)); [exact L|apply derivable_pt_lim_sin]]].
  ring.
Qed.

Lemma still_inv bV om asked x z sides : Forall no_wall sides -> forall acc r, over (fd_side d cp cv nphi bV om asked x z) sides acc = Ok r ->
  exists Js, Forall2 (fun sc J => match snd sc with FdDirichlet => J = em0 | FdSymmetry => still_matrix d cp cv nphi x (fst sc) SymmetryWall = Ok J
      | FdFar inf => still_matrix d cp cv nphi x (fst sc) (FarField inf) = Ok J | _ => False end) sides Js /\
    (forall v k, fst (fst r) v k = fst (fst acc) v k + bV * mul (fold_right em_add em0 Js) (fst z) v k) /\
    (forall v k, snd (fst r) v k = snd (fst acc) v k + bV * mul (fold_right em_add em0 Js) (snd z) v k) /\
    (forall v k v' k', fst (snd r) v k v' k' = fst (snd acc) v k v' k' + (if asked then bV * fold_right em_add em0 Js v k v' k' else 0)) /\
    (forall v k v' k', snd (snd r) v k v' k' = snd (snd acc) v k v' k').
Proof.
  induction sides as [|sc sides IH]; intros W acc r H.
  - cbn in H. injection H as <-. exists []. cbn [fold_right]. split; [constructor|]. repeat split; intros; rewrite ?emul_zero; try ring. destruct asked; unfold em0; ring.
  - inversion W as [|? ? W1 W2]; subst. cbn [over] in H.
    assert (Q : exists J, (match snd sc with FdDirichlet => J = em0 | FdSymmetry => still_matrix d cp cv nphi x (fst sc) SymmetryWall = Ok J
      | FdFar inf => still_matrix d cp cv nphi x (fst sc) (FarField inf) = Ok J | _ => False end) /\
      exists a, fd_side d cp cv nphi bV om asked x z sc acc = Ok a /\ over (fd_side d cp cv nphi bV om asked x z) sides a = Ok r /\
      (forall v k, fst (fst a) v k = fst (fst acc) v k + bV * mul J (fst z) v k) /\
      (forall v k, snd (fst a) v k = snd (fst acc) v k + bV * mul J (snd z) v k) /\
      (forall v k v' k', fst (snd a) v k v' k' = fst (snd acc) v k v' k' + (if asked then bV * J v k v' k' else 0)) /\
      (forall v k v' k', snd (snd a) v k v' k' = snd (snd acc) v k v' k')).
    { destruct (fd_side d cp cv nphi bV om asked x z sc acc) as [a|] eqn:E; [|discriminate]. cbn [bind] in H. revert E.
      unfold fd_side, no_wall in *. destruct (snd sc) as [| | inf | |]; try contradiction; try discriminate.
      - destruct (still_matrix _ _ _ _ _ _ _) as [J|]; [|discriminate]. cbn [bind]. intros [= <-]. exists J. split; [reflexivity|]. eexists. split; [reflexivity|split; [exact H|]].
        unfold add_still, c_add, cmul, ev_add; cbn [fst snd]. repeat split; intros; rewrite ?emul_scale, ?emul_zero; try ring;
          destruct asked; unfold cm_add, em_add, em_scale, em0; cbn; ring.
      - destruct (still_matrix _ _ _ _ _ _ _) as [J|]; [|discriminate]. cbn [bind]. intros [= <-]. exists J. split; [reflexivity|]. eexists. split; [reflexivity|split; [exact H|]].
        unfold add_still, c_add, cmul, ev_add; cbn [fst snd]. repeat split; intros; rewrite ?emul_scale, ?emul_zero; try ring;
          destruct asked; unfold cm_add, em_add, em_scale, em0; cbn; ring.
      - intros [= <-]. exists em0. split; [reflexivity|]. eexists. split; [reflexivity|split; [exact H|]].
        repeat split; intros; rewrite ?emul_zero; try ring. destruct asked; unfold em0; ring. }
    destruct Q as (J & HJ & a & _ & Ho & A1 & A2 & A3 & A4). destruct (IH W2 a r Ho) as (Js & F & B1 & B2 & B3 & B4).
    exists (J :: Js). split; [constructor; [exact HJ|exact F]|]. cbn [fold_right].
    assert (M : forall y v k, mul (em_add J (fold_right em_add em0 Js)) y v k = mul J y v k + mul (fold_right em_add em0 Js) y v k).
    { intros. unfold emul, em_add. rewrite <- sum_plus. apply sum_ext; intros i _. rewrite <- sum_plus. apply sum_ext; intros j _. ring. }
    repeat split; intros.
    + rewrite B1, A1, M; ring.
    + rewrite B2, A2, M; ring.
    + rewrite B3, A3. destruct asked; unfold em_add; ring.
    + rewrite B4, A4; ring.
Qed.

(** the perturbed state is linear in the perturbation *)
Lemma pert_phase s dU p : valid_dim d ->
  let q := pert_of d cp cv false s (turned dU p) in
  let qr := pert_of d cp cv false s (fst dU) in let qi := pert_of d cp cv false s (snd dU) in
  d_p q = at_phase (d_p qr) (d_p qi) p /\ (forall i, (i < 3)%nat -> duvec d q i = at_phase (duvec d qr i) (duvec d qi i) p).
Proof.
  intros D. cbv zeta. split.
  - dims D; cbn; unfold turned, at_phase, Rdiv; ring.
  - intros i Hi. destruct i as [|[|[|]]]; [| | |lia]; dims D; cbn; unfold turned, at_phase, Rdiv; ring.
Qed.

Lemma lin_rate a b : derivable_pt_lim (fun t => a + t * b) 0 b.
Proof.
  eapply deriv_eq; [|apply derivable_pt_lim_plus; [apply derivable_pt_lim_const|apply derivable_pt_lim_mult; [apply derivable_pt_lim_id|apply derivable_pt_lim_const]]].
  unfold fct_cte. ring.
Qed.
Lemma dot3_rate (f g : R -> vec) df dg : (forall i, (i < 3)%nat -> derivable_pt_lim (fun t => f t i) 0 (df i)) ->
  (forall i, (i < 3)%nat -> derivable_pt_lim (fun t => g t i) 0 (dg i)) ->
  derivable_pt_lim (fun t => dot3 (f t) (g t)) 0 (dot3 df (g 0) + dot3 (f 0) dg).
Proof.
  intros F G. unfold dot3. cbn [sum].
  eapply deriv_eq; [|apply derivable_pt_lim_plus; [apply derivable_pt_lim_plus; [apply derivable_pt_lim_plus; [apply derivable_pt_lim_const|]|]|];
    apply (derivable_pt_lim_mult (fun t => f t _) (fun t => g t _)); [apply F|apply G|apply F|apply G|apply F|apply G]; lia].
  ring.
Qed.
Lemma vadd_rate (f g : R -> vec) df dg i : derivable_pt_lim (fun t => f t i) 0 (df i) -> derivable_pt_lim (fun t => g t i) 0 (dg i) ->
  derivable_pt_lim (fun t => vplus (f t) (g t) i) 0 (vplus df dg i).
Proof. intros F G. unfold vplus. now apply (derivable_pt_lim_plus (fun t => f t i) (fun t => g t i)). Qed.

(** the error of the phase *)
Definition phase_error (bV om : R) (b : fslip) (q : fpt) (s : prim) (dU : v3) (p : R) : R :=
  - 2 * om * dot3 (snd (wall_dw b q)) (vplus (pad d (fq_n q)) (at_pt (fs_rot b) q)) * cos p +
  2 * bV * dot3 (duvec d (pert_of d cp cv false s (snd dU))) (at_pt (fs_rot b) q) * sin p.
Lemma wall_rate bV om b q U s dU p v : valid_dim d -> 0 < cv < cp -> prim_init d cp cv false U = Ok s -> (v < d + 2)%nat ->
  derivable_pt_lim (fun e => moving_flux d bV (pad d (fq_n q)) (at_pt (fs_vel b) q) (fun i => 0 + e * swing om (wall_dw b q) p i)
      (fun i => at_pt (fs_rot b) q i + e * turned (wall_dn b q) p i)
      (prim_of d cp cv false (fun i => U i + e * turned dU p i)) (fun i => U i + e * turned dU p i) v) 0
    (at_phase (fst (wall_point d cp cv bV om b q U s dU) v) (snd (wall_point d cp cv bV om b q U s dU) v) p +
     phase_error bV om b q s dU p * (U v + if Nat.eqb v (d + 1) then p_p s else 0)).
Proof.
  intros D G HI Hv.
  set (Ue := fun e i => U i + e * turned dU p i).
  assert (FO : follows Ue 0 (turned dU p)) by (intros i; unfold Ue; apply lin_rate).
  assert (U0 : Ue 0 = U) by (apply functional_extensionality; intros i; unfold Ue; ring).
  pose proof (prim_init_ok _ _ _ _ _ _ G HI) as (Es & _).
  rewrite <- U0 in HI.
  pose proof (perturbation_is_derivative_partial d cp cv false Ue 0 (turned dU p) s D G FO HI) as H. cbv zeta in H.
  destruct H as (_ & H1 & H2 & H3 & _ & _ & _ & HP & _).
  destruct (pert_phase s dU p D) as [LP LU]. cbv zeta in LP, LU.
  set (qr := pert_of d cp cv false s (fst dU)) in *. set (qi := pert_of d cp cv false s (snd dU)) in *. set (qe := pert_of d cp cv false s (turned dU p)) in *.
  assert (HU : forall i, (i < 3)%nat -> derivable_pt_lim (fun e => uvec d (prim_of d cp cv false (Ue e)) i) 0 (duvec d qe i)).
  { intros i Hi. destruct i as [|[|[|]]]; [exact H1| | |lia]; cbn [uvec duvec]; destruct (Nat.ltb _ d); auto; apply derivable_pt_lim_const. }
  set (ni := pad d (fq_n q)). set (wd := at_pt (fs_vel b) q). set (dn := at_pt (fs_rot b) q). set (Dn := wall_dn b q). set (Dw := wall_dw b q).
  set (dne := fun e i => dn i + e * turned Dn p i). set (wte := fun e i => 0 + e * swing om Dw p i).
  assert (RN : forall i, (i < 3)%nat -> derivable_pt_lim (fun e => dne e i) 0 (turned Dn p i)) by (intros; apply lin_rate).
  assert (RW : forall i, (i < 3)%nat -> derivable_pt_lim (fun e => wte e i) 0 (swing om Dw p i)) by (intros; apply lin_rate).
  assert (RM : forall i, (i < 3)%nat -> derivable_pt_lim (fun e => vplus ni (dne e) i) 0 (vplus (fun _ => 0) (turned Dn p) i)).
  { intros i Hi. apply (vadd_rate (fun _ => ni) dne (fun _ => 0)); [apply derivable_pt_lim_const|now apply RN]. }
  pose proof (dot3_rate (fun _ => wd) (fun e => vplus ni (dne e)) (fun _ => 0) _ (fun i _ => derivable_pt_lim_const (wd i) 0) RM) as A1.
  pose proof (dot3_rate (fun e => uvec d (prim_of d cp cv false (Ue e))) dne _ _ HU RN) as A2.
  pose proof (dot3_rate wte (fun e => vplus ni (dne e)) _ _ RW RM) as A3.
  assert (RUN := derivable_pt_lim_plus _ _ _ _ _ (derivable_pt_lim_scal _ bV _ _ (derivable_pt_lim_minus _ _ _ _ _ A1 A2)) A3).
  unfold plus_fct, minus_fct, mult_real_fct in RUN. cbv beta in RUN.
  set (un := fun e => bV * (dot3 wd (vplus ni (dne e)) - dot3 (uvec d (prim_of d cp cv false (Ue e))) (dne e)) + dot3 (wte e) (vplus ni (dne e))) in *.
  match type of RUN with derivable_pt_lim _ _ ?l => set (dun := l) in * end.
  assert (M1 := derivable_pt_lim_mult un (fun e => Ue e v) 0 _ _ RUN (FO v)).
  assert (M2 : derivable_pt_lim (fun e => if Nat.eqb v (d + 1) then un e * p_p (prim_of d cp cv false (Ue e)) else 0) 0
    (if Nat.eqb v (d + 1) then dun * p_p s + un 0 * d_p qe else 0)).
  { destruct (Nat.eqb v (d + 1)); [|apply derivable_pt_lim_const]. rewrite Es, <- U0.
    apply (derivable_pt_lim_mult un (fun e => p_p (prim_of d cp cv false (Ue e)))); [exact RUN|exact HP]. }
  assert (M3 : derivable_pt_lim (fun e => if (Nat.ltb 0 v && Nat.leb v d)%bool then bV * p_p (prim_of d cp cv false (Ue e)) * ni (v - 1)%nat else 0) 0
    (if (Nat.ltb 0 v && Nat.leb v d)%bool then bV * d_p qe * ni (v - 1)%nat else 0)).
  { destruct (Nat.ltb 0 v && Nat.leb v d)%bool; [|apply derivable_pt_lim_const].
    eapply deriv_eq; [|apply (derivable_pt_lim_mult (fun e => bV * p_p (prim_of d cp cv false (Ue e))) (fct_cte (ni (v - 1)%nat)));
      [apply derivable_pt_lim_scal; exact HP|apply derivable_pt_lim_const]]. unfold fct_cte. ring. }
  assert (ALL := derivable_pt_lim_plus _ _ _ _ _ (derivable_pt_lim_plus _ _ _ _ _ M1 M2) M3).
  eapply deriv_eq; [|exact ALL].
  assert (E0 : un 0 = bV * wall_speed0 d b q s).
  { unfold un, wall_speed0. fold ni dn wd. rewrite U0, <- Es. unfold dne, wte, dot3, vplus. cbn [sum]. ring. }
  assert (DU : dun = at_phase (fst (edot (rv wd) Dn) - fst (edot (rv (uvec d s)) Dn) - fst (edot (duvec d qr, duvec d qi) (rv dn)))
      (snd (edot (rv wd) Dn) - snd (edot (rv (uvec d s)) Dn) - snd (edot (duvec d qr, duvec d qi) (rv dn))) p * bV +
    at_phase (- om * snd (edot Dw (rv (vplus ni dn)))) (om * fst (edot Dw (rv (vplus ni dn)))) p + phase_error bV om b q s dU p).
  { unfold dun. rewrite U0, <- Es. unfold phase_error. fold ni dn Dw qi. unfold edot, rv, dot3, dne, wte, vplus, swing, turned. cbn [sum fst snd].
    rewrite !LU by lia. unfold at_phase. ring. }
  rewrite DU, E0, U0, LP. unfold wall_point. fold ni dn wd Dn Dw qr qi. cbv zeta. cbn [fst snd].
  unfold turned, at_phase. destruct (Nat.eqb v (d + 1)), (Nat.ltb 0 v && Nat.leb v d)%bool; ring.
Qed.
End P.
