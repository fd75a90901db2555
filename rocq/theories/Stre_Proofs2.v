(** Sums of contributions and their derivatives. *)
From Coq Require Import List Arith NArith ZArith Lia Reals Lra Bool.
From Verif Require Import Base BaseLemmas RBool Stre_Model Stre_Spec Stre_Proofs.
Import ListNotations.
Open Scope R_scope.

Definition tv (kd : kind) (k : coef) (d : datum) : R * R := match term kd k d with Ok x => x | Fault _ => (0, 0) end.
Lemma tv_ok kd k d x : term kd k d = Ok x -> tv kd k d = x.
Proof. intros H. unfold tv. rewrite H. auto. Qed.

Lemma dPL f g t0 a b : derivable_pt_lim f t0 a -> derivable_pt_lim g t0 b -> derivable_pt_lim (fun t => f t + g t) t0 (a + b).
Proof. intros. apply (derivable_pt_lim_plus f g); auto. Qed.
Lemma dMI f g t0 a b : derivable_pt_lim f t0 a -> derivable_pt_lim g t0 b -> derivable_pt_lim (fun t => f t - g t) t0 (a - b).
Proof. intros. apply (derivable_pt_lim_minus f g); auto. Qed.
Lemma dMU f g t0 a b : derivable_pt_lim f t0 a -> derivable_pt_lim g t0 b -> derivable_pt_lim (fun t => f t * g t) t0 (a * g t0 + f t0 * b).
Proof. intros. apply (derivable_pt_lim_mult f g); auto. Qed.
Lemma dSC c f t0 a : derivable_pt_lim f t0 a -> derivable_pt_lim (fun t => c * f t) t0 (c * a).
Proof. intros. apply (derivable_pt_lim_scal f); auto. Qed.
Lemma dCO c t0 : derivable_pt_lim (fun _ => c) t0 0.
Proof. apply derivable_pt_lim_const. Qed.
Lemma dDI f g t0 a b : derivable_pt_lim f t0 a -> derivable_pt_lim g t0 b -> g t0 <> 0 ->
  derivable_pt_lim (fun t => f t / g t) t0 ((a * g t0 - b * f t0) / (g t0 * g t0)).
Proof. intros. apply (derivable_pt_lim_div f g); auto. Qed.
Lemma dEX f t0 a : derivable_pt_lim f t0 a -> derivable_pt_lim (fun t => exp (f t)) t0 (exp (f t0) * a).
Proof. intros. apply (deriv_comp exp f); auto. apply derivable_pt_lim_exp. Qed.

Lemma mises_path m t0 f : moves_well m t0 -> exists de, dmises_dp (at_ f t0 m) f = Ok de /\
  derivable_pt_lim (fun t => mises (m_s m t)) t0 de /\ (mises (m_s m t0) = 0 -> de = 0).
Proof.
  intros (D & Z). unfold dmises_dp, at_. cbn. rewrite Nat.eqb_refl.
  destruct (Req_dec (mises (m_s m t0)) 0) as [H|H].
  - exists 0. split; [apply dmises_zero; auto|]. auto.
  - destruct (dmises_deriv (m_s m) (m_ds m) t0 D H) as (v & A & B). exists v. split; auto. split; auto. intros; contradiction.
Qed.

Section Point.
Variables (k : coef) (f : nat) (t0 : R).
Hypothesis S0 : 0 < k_s0 k.
Hypothesis P0 : k_p k <> 0.

(** The stress power along the path. *)
Lemma stress_pow m de : derivable_pt_lim (fun t => mises (m_s m t)) t0 de -> (mises (m_s m t0) = 0 -> de = 0) ->
  0 < mises (m_s m t0) \/ 1 <= k_p k ->
  exists v v1, cpow (mises (m_s m t0) / k_s0 k) (k_p k) = Ok v /\ cpow (mises (m_s m t0) / k_s0 k) (k_p k - 1) = Ok v1 /\
   near t0 (fun t => pow_ok (mises (m_s m t) / k_s0 k) (k_p k)) /\
   derivable_pt_lim (fun t => cpv (mises (m_s m t) / k_s0 k) (k_p k)) t0 (k_p k * v1 * (de / k_s0 k)).
Proof.
  intros D Z B. apply (pow_path (fun t => mises (m_s m t) / k_s0 k)).
  - intros t. apply Rmult_le_pos; [apply mises_pos|left; apply Rinv_0_lt_compat; auto].
  - eapply deriv_ext with (f := fun t => / k_s0 k * mises (m_s m t)); [apply near_all; intros; unfold Rdiv; ring|].
    eapply deriv_eq; [|apply dSC; eauto]. unfold Rdiv; ring.
  - intros H. assert (mises (m_s m t0) = 0) as K.
    { apply Rmult_integral in H. destruct H as [H|H]; auto. exfalso. pose proof (Rinv_0_lt_compat _ S0). lra. }
    rewrite (Z K). unfold Rdiv; ring.
  - destruct (mises_pos (m_s m t0)) as [H|H].
    + left. apply Rdiv_lt_0_compat; auto.
    + rewrite <- H in *. destruct B as [B|B]; [lra|]. right. split; auto. unfold Rdiv; ring.
Qed.

Lemma point_deriv kd m : moves_well m t0 -> regular kd k (mises (m_s m t0)) ->
  exists num den, (de <- dmises_dp (at_ f t0 m) f ;; sens_term kd k (at_ f t0 m) de) = Ok (num, den) /\
   near t0 (fun t => term kd k (at_ f t m) = Ok (tv kd k (at_ f t m))) /\
   derivable_pt_lim (fun t => fst (tv kd k (at_ f t m))) t0 num /\
   derivable_pt_lim (fun t => snd (tv kd k (at_ f t m))) t0 (match kd with PNorm => den | _ => 0 end) /\
   (kd <> PNorm -> den = 0).
Proof.
  intros MW RG. destruct (mises_path m t0 f MW) as (de & E & D & Z). rewrite E. cbn [bind]. unfold sens_term. rewrite von_mises_ok. cbn [bind].
  change (d_s (at_ f t0 m)) with (m_s m t0). set (e := mises (m_s m t0)) in *. change (d_J (at_ f t0 m)) with (m_J m).
  destruct kd.
  - destruct RG as (RE & RW & RL).
    destruct (stress_pow m de D Z RE) as (v & v1 & A1 & A2 & A3 & A4). fold e in A1, A2. rewrite A1, A2. cbn [bind].
    set (g := fun t => (mises (m_s m t) - k_s0 k) / k_s0 k).
    assert (GD : derivable_pt_lim g t0 (de / k_s0 k)).
    { eapply deriv_ext with (f := fun t => / k_s0 k * (mises (m_s m t) - k_s0 k)); [apply near_all; intros; unfold g, Rdiv; ring|].
      eapply deriv_eq; [|apply dSC; apply dMI; [eauto|apply dCO]]. unfold Rdiv; ring. }
    change ((e - k_s0 k) / k_s0 k) with (g t0) in *.
    destruct (smooth_deriv (g t0) (k_w k) RW) as (u & u1 & B1 & B2 & B3 & B4). rewrite B1, B2. cbn [bind].
    specialize (RL u B1).
    assert (WD : derivable_pt_lim (fun t => cpv (g t) (k_w k)) t0 (k_w k * u1 * (de / k_s0 k))).
    { apply (deriv_comp (fun x => cpv x (k_w k)) g); auto. }
    assert (WN : near t0 (fun t => pow_ok (g t) (k_w k))). { exact (near_comp g t0 _ (fun x => pow_ok x (k_w k)) GD B3). }
    (* near t0 the term is ok *)
    assert (TN : near t0 (fun t => term PNorm k (at_ f t m) = Ok (
        let w := if rltb exp_lim (k_rho k * cpv (g t) (k_w k)) then exp exp_lim else exp (k_rho k * cpv (g t) (k_w k)) in
        (cpv (mises (m_s m t) / k_s0 k) (k_p k) * w * m_J m, w * m_J m)))).
    { eapply near_impl; [|apply near_and; [exact A3|exact WN]]. intros t (T1 & T2). cbn beta in *.
      unfold term. cbn [at_ d_s d_J]. rewrite von_mises_ok. cbn [bind]. unfold weight. change ((mises (m_s m t) - k_s0 k) / k_s0 k) with (g t).
      rewrite T2. cbn [bind]. rewrite T1. cbn [bind]. reflexivity. }
    assert (CU : cpv (g t0) (k_w k) = u) by (apply cpv_ok; auto).
    assert (CV : cpv (e / k_s0 k) (k_p k) = v) by (apply cpv_ok; auto).
    destruct (rltb exp_lim (k_rho k * u)) eqn:LT.
    + apply rltb_true in LT. eexists _, _. split; [reflexivity|].
      assert (NL : near t0 (fun t => exp_lim < k_rho k * cpv (g t) (k_w k))).
      { eapply near_impl; [|eapply (near_pos (fun t => k_rho k * cpv (g t) (k_w k) - exp_lim))]; [cbn; intros; lra| |cbn; rewrite CU; lra].
        apply dMI; [apply dSC; eauto|apply dCO]. }
      assert (TV : near t0 (fun t => tv PNorm k (at_ f t m) = (cpv (mises (m_s m t) / k_s0 k) (k_p k) * exp exp_lim * m_J m, exp exp_lim * m_J m))).
      { eapply near_impl; [|apply near_and; [exact TN|exact NL]]. intros t (T1 & T2). cbn beta in *.
        rewrite (tv_ok _ _ _ _ T1). cbv zeta. rewrite (proj2 (rltb_true _ _) T2). auto. }
      split; [eapply near_impl; [|exact TN]; intros t T; cbn beta in T; rewrite (tv_ok _ _ _ _ T); exact T|].
      split; [|split; [|intros; congruence]].
      * eapply deriv_ext; [eapply near_impl; [|exact TV]; intros t T; cbn beta in T; rewrite T; cbn [fst]; reflexivity|].
        eapply deriv_ext with (f := fun t => (exp exp_lim * m_J m) * cpv (mises (m_s m t) / k_s0 k) (k_p k)); [apply near_all; intros; ring|].
        eapply deriv_eq; [|apply dSC; exact A4]. unfold Rdiv; ring.
      * eapply deriv_ext; [eapply near_impl; [|exact TV]; intros t T; cbn beta in T; rewrite T; cbn [snd]; reflexivity|]. apply dCO.
    + apply rltb_false in LT. eexists _, _. split; [reflexivity|].
      assert (NL : near t0 (fun t => k_rho k * cpv (g t) (k_w k) <= exp_lim)).
      { eapply near_impl; [|eapply (near_pos (fun t => exp_lim - k_rho k * cpv (g t) (k_w k)))]; [cbn; intros; lra| |cbn; rewrite CU; lra].
        apply dMI; [apply dCO|apply dSC; eauto]. }
      assert (TV : near t0 (fun t => tv PNorm k (at_ f t m) =
         (cpv (mises (m_s m t) / k_s0 k) (k_p k) * exp (k_rho k * cpv (g t) (k_w k)) * m_J m, exp (k_rho k * cpv (g t) (k_w k)) * m_J m))).
      { eapply near_impl; [|apply near_and; [exact TN|exact NL]]. intros t (T1 & T2). cbn beta in *.
        rewrite (tv_ok _ _ _ _ T1). cbv zeta. rewrite (proj2 (rltb_false _ _) T2). auto. }
      split; [eapply near_impl; [|exact TN]; intros t T; cbn beta in T; rewrite (tv_ok _ _ _ _ T); exact T|].
      assert (XD : derivable_pt_lim (fun t => exp (k_rho k * cpv (g t) (k_w k))) t0 (exp (k_rho k * u) * (k_rho k * (k_w k * u1 * (de / k_s0 k))))).
      { eapply deriv_eq; [|apply dEX; apply dSC; exact WD]. cbn. rewrite CU. auto. }
      split; [|split; [|intros; congruence]].
      * eapply deriv_ext; [eapply near_impl; [|exact TV]; intros t T; cbn beta in T; rewrite T; cbn [fst]; reflexivity|].
        eapply deriv_ext with (f := fun t => m_J m * (cpv (mises (m_s m t) / k_s0 k) (k_p k) * exp (k_rho k * cpv (g t) (k_w k)))); [apply near_all; intros; ring|].
        eapply deriv_eq; [|apply dSC; apply dMU; [exact A4|exact XD]]. cbn beta. fold e. rewrite CU, CV. unfold Rdiv; ring.
      * eapply deriv_ext; [eapply near_impl; [|exact TV]; intros t T; cbn beta in T; rewrite T; cbn [snd]; reflexivity|].
        eapply deriv_ext with (f := fun t => m_J m * exp (k_rho k * cpv (g t) (k_w k))); [apply near_all; intros; ring|].
        eapply deriv_eq; [|apply dSC; exact XD]. unfold Rdiv; ring.
  - eexists _, _. split; [reflexivity|].
    assert (TN : forall t, term KS k (at_ f t m) = Ok (exp (k_p k * (mises (m_s m t) - k_s0 k) / k_s0 k) * m_J m, m_J m)).
    { intros t. unfold term. cbn [at_ d_s d_J]. rewrite von_mises_ok. auto. }
    split; [apply near_all; intros t; rewrite (tv_ok _ _ _ _ (TN t)); apply TN|]. split; [|split; auto].
    + eapply deriv_ext; [apply near_all; intros t; rewrite (tv_ok _ _ _ _ (TN t)); cbn [fst]; reflexivity|].
      eapply deriv_ext with (f := fun t => m_J m * exp (k_p k / k_s0 k * (mises (m_s m t) - k_s0 k))); [apply near_all; intros; rewrite Rmult_comm; do 2 f_equal; unfold Rdiv; ring|].
      eapply deriv_eq; [|apply dSC; apply dEX; apply dSC; apply dMI; [exact D|apply dCO]]. cbn beta. fold e.
      replace (k_p k * (e - k_s0 k) / k_s0 k) with (k_p k / k_s0 k * (e - k_s0 k)) by (unfold Rdiv; ring). unfold Rdiv; ring.
    + eapply deriv_ext; [apply near_all; intros t; rewrite (tv_ok _ _ _ _ (TN t)); cbn [snd]; reflexivity|]. apply dCO.
  - cbn [regular] in RG. destruct (stress_pow m de D Z RG) as (v & v1 & A1 & A2 & A3 & A4). fold e in A1, A2. rewrite A1. cbn [bind].
    unfold rdiv. rewrite (proj2 (reqb_false _ _) P0). cbn [bind].
    assert (VP : forall x w, cpow x (k_p k) = Ok w -> 0 <= w \/ x < 0).
    { intros x w H. destruct (Rlt_dec x 0) as [X|X]; [right; auto|left]. unfold cpow in H.
      rbh H; try discriminate; try (injection H as <-); try lra; left; apply exp_pos. }
    assert (VN : forall t w, cpow (mises (m_s m t) / k_s0 k) (k_p k) = Ok w -> 0 < 1 + w).
    { intros t w H. destruct (VP _ _ H) as [K|K]; [lra|]. exfalso.
      pose proof (Rmult_le_pos _ _ (mises_pos (m_s m t)) (Rlt_le _ _ (Rinv_0_lt_compat _ S0))). unfold Rdiv in K. lra. }
    pose proof (VN t0 v A1) as V0. rewrite cpow_pos by auto. cbn [bind]. rewrite A2. cbn [bind].
    eexists _, _. split; [reflexivity|].
    assert (TN : near t0 (fun t => term Ramp k (at_ f t m) = Ok (Rpower (1 + cpv (mises (m_s m t) / k_s0 k) (k_p k)) (1 / k_p k) * m_J m, m_J m))).
    { eapply near_impl; [|exact A3]. intros t T. cbn beta in T. unfold term. cbn [at_ d_s d_J]. rewrite von_mises_ok. cbn [bind].
      rewrite T. cbn [bind]. unfold rdiv. rewrite (proj2 (reqb_false _ _) P0). cbn [bind]. rewrite cpow_pos by (eapply VN; exact T). auto. }
    assert (TV : near t0 (fun t => tv Ramp k (at_ f t m) = (Rpower (1 + cpv (mises (m_s m t) / k_s0 k) (k_p k)) (1 / k_p k) * m_J m, m_J m))).
    { eapply near_impl; [|exact TN]. intros t T. apply tv_ok. exact T. }
    assert (CV : cpv (e / k_s0 k) (k_p k) = v) by (apply cpv_ok; auto).
    split; [eapply near_impl; [|exact TN]; intros t T; cbn beta in T; rewrite (tv_ok _ _ _ _ T); exact T|]. split; [|split; auto].
    + eapply deriv_ext; [eapply near_impl; [|exact TV]; intros t T; cbn beta in T; rewrite T; cbn [fst]; reflexivity|].
      eapply deriv_ext with (f := fun t => m_J m * Rpower (1 + cpv (mises (m_s m t) / k_s0 k) (k_p k)) (1 / k_p k)); [apply near_all; intros; ring|].
      eapply deriv_eq; [|apply dSC; apply (deriv_comp (fun x => Rpower x (1 / k_p k)) (fun t => 1 + cpv (mises (m_s m t) / k_s0 k) (k_p k)));
        [apply dPL; [apply dCO|exact A4]|cbn beta; fold e; rewrite CV; apply derivable_pt_lim_power; exact V0]].
      field. split; [lra|auto].
    + eapply deriv_ext; [eapply near_impl; [|exact TV]; intros t T; cbn beta in T; rewrite T; cbn [snd]; reflexivity|]. apply dCO.
Qed.
End Point.
