(** The stress output properties. *)
From Coq Require Import List Arith NArith ZArith Lia Reals Lra Bool Permutation.
From Verif Require Import Base BaseLemmas RBool Stre_Model Stre_Spec Stre_Proofs Stre_Proofs2 Stre_Proofs3 Stre_Proofs4.
Import ListNotations.
Open Scope R_scope.

(** ** C53 *)
Theorem C53_von_mises s : von_mises s = Ok (mises s) /\ 0 <= mises s.
Proof. split; [apply von_mises_ok|apply mises_pos]. Qed.
(** Adding a hydrostatic stress changes nothing. *)
Theorem C53_hydrostatic s c : von_mises (fun k => if (k <? 3)%nat then s k + c else s k) = von_mises s.
Proof.
  rewrite !von_mises_ok. f_equal. rewrite !mises_quad. apply f_equal. unfold quad. cbn [Nat.ltb Nat.leb]. ring.
Qed.
Theorem C53_homogeneous s c : exists v, von_mises s = Ok v /\ von_mises (fun k => c * s k) = Ok (Rabs c * v).
Proof.
  exists (mises s). split; [apply von_mises_ok|]. rewrite von_mises_ok. f_equal. rewrite !mises_quad.
  replace (quad (fun k => c * s k)) with (Rsqr c * quad s) by (unfold quad, Rsqr; ring).
  rewrite sqrt_mult by (try apply Rle_0_sqr; apply quad_nonneg). rewrite sqrt_Rsqr_abs. auto.
Qed.
(** Zero exactly when the stress is hydrostatic. *)
Theorem C53_zero s : von_mises s = Ok 0 <-> s 0%nat = s 1%nat /\ s 1%nat = s 2%nat /\ s 3%nat = 0 /\ s 4%nat = 0 /\ s 5%nat = 0.
Proof.
  rewrite von_mises_ok. split.
  - intros H. injection H as H. apply mises_zero in H. rewrite quad_mises in H.
    pose proof (pow2_ge_0 (s 0%nat - s 1%nat)). pose proof (pow2_ge_0 (s 1%nat - s 2%nat)). pose proof (pow2_ge_0 (s 2%nat - s 0%nat)).
    pose proof (pow2_ge_0 (s 3%nat)). pose proof (pow2_ge_0 (s 4%nat)). pose proof (pow2_ge_0 (s 5%nat)).
    assert (Z : forall x, x ^ 2 = 0 -> x = 0) by (intros x X; cbn in X; rewrite Rmult_1_r in X; apply Rsqr_0_uniq; exact X).
    assert (Z1 := Z (s 0%nat - s 1%nat) ltac:(lra)). assert (Z2 := Z (s 1%nat - s 2%nat) ltac:(lra)).
    assert (Z3 := Z (s 3%nat) ltac:(lra)). assert (Z4 := Z (s 4%nat) ltac:(lra)). assert (Z5 := Z (s 5%nat) ltac:(lra)).
    repeat split; lra.
  - intros (A & B & C & D & E). f_equal. apply mises_zero. unfold quad. rewrite A, B, C, D, E. ring.
Qed.
(** The sensitivities with respect to a parameter and to the state. *)
Theorem C53_sensitivity (s : R -> nat -> R) ds t0 d f j :
  (forall k, (k < 6)%nat -> derivable_pt_lim (fun t => s t k) t0 (ds k)) -> mises (s t0) <> 0 -> d_s d = s t0 ->
  (d_ds d f = Some ds -> exists v, dmises_dp d f = Ok v /\ derivable_pt_lim (fun t => mises (s t)) t0 v) /\
  (d_dX d j = ds -> exists v, dmises_dX d j = Ok v /\ derivable_pt_lim (fun t => mises (s t)) t0 v).
Proof.
  intros D N E. destruct (dmises_deriv s ds t0 D N) as (v & A & B). split; intros F; exists v; split; auto.
  - unfold dmises_dp. rewrite F, E. auto.
  - unfold dmises_dX. rewrite F, E. auto.
Qed.
(** No sensitivity stored, or zero stress: zero is returned. *)
Theorem C53_sensitivity_zero d f j : (d_ds d f = None \/ mises (d_s d) = 0 -> dmises_dp d f = Ok 0) /\ (mises (d_s d) = 0 -> dmises_dX d j = Ok 0).
Proof.
  split.
  - unfold dmises_dp. intros [->|Z]; auto. destruct (d_ds d f); auto. apply dmises_zero; auto.
  - apply dmises_zero.
Qed.
Definition uniaxial (t : R) (k : nat) : R := match k with 0%nat => 1 + t | _ => 0 end.
Definition uniaxial' (k : nat) : R := match k with 0%nat => 1 | _ => 0 end.
Lemma uniaxial_deriv t0 k : (k < 6)%nat -> derivable_pt_lim (fun t => uniaxial t k) t0 (uniaxial' k).
Proof.
  intros _. destruct k; cbn; [|apply dCO]. eapply deriv_eq; [|apply dPL; [apply dCO|apply derivable_pt_lim_id]]. ring.
Qed.
Lemma uniaxial_mises t : mises (uniaxial t) = Rabs (1 + t).
Proof.
  rewrite mises_quad. replace (quad (uniaxial t)) with (Rsqr (1 + t)) by (unfold quad, Rsqr; cbn; field). apply sqrt_Rsqr_abs.
Qed.
Lemma uniaxial_0 : mises (uniaxial 0) = 1.
Proof. rewrite uniaxial_mises, Rplus_0_r. apply Rabs_pos_eq. lra. Qed.
Example C53_example : exists v, dmises_dp (mkDatum (uniaxial 0) 1 (fun _ => Some uniaxial') (fun _ => uniaxial')) 0 = Ok v /\
   derivable_pt_lim (fun t => mises (uniaxial t)) 0 v.
Proof.
  apply (C53_sensitivity uniaxial uniaxial' 0 _ 0%nat 0%nat); auto.
  - intros k K. apply uniaxial_deriv; auto.
  - rewrite uniaxial_0. lra.
Qed.

(** ** C54 *)
(** Whatever the weights and exponents, a returned p-norm lies between bounds of the stresses. *)
Theorem C54_between_partial k rs o lo hi : functional PNorm k rs = Ok o ->
  (forall d, In d (all_points rs) -> 0 < d_J d /\ lo <= mises (d_s d) <= hi) -> lo <= t_norm o <= hi.
Proof. apply pnorm_between. Qed.
(** A value is returned when the exponent of the weight is a natural number and p is positive. *)
Theorem C54_total_partial k rs n : 0 < k_s0 k -> 0 < k_p k -> k_w k = INR n -> all_points rs <> [] ->
  (forall d, In d (all_points rs) -> 0 < d_J d) -> exists o, functional PNorm k rs = Ok o.
Proof.
  intros S0 P W NE J.
  assert (TK : forall d, In d (all_points rs) -> term PNorm k d = Ok (tv PNorm k d)).
  { intros d D. unfold tv. destruct (term PNorm k d) as [x|e] eqn:E; auto. exfalso. unfold term in E. rewrite von_mises_ok in E. cbn [bind] in E.
    unfold weight in E. rewrite W, cpow_nat in E. cbn [bind] in E.
    assert (X : 0 <= mises (d_s d) / k_s0 k). { apply Rmult_le_pos; [apply mises_pos|left; apply Rinv_0_lt_compat; auto]. }
    destruct X as [X|X]; [rewrite cpow_pos in E by auto|rewrite <- X, cpow_0 in E by auto]; discriminate. }
  destruct (totals_pos PNorm k rs S0 J NE TK) as (A & B & _). rewrite functional_run by auto. unfold finish. cbn [fst snd].
  rewrite rdiv_ok by lra. cbn [bind]. rewrite rdiv_ok by lra. cbn [bind].
  assert (M : 0 <= T1 PNorm k rs / T2 PNorm k rs) by (apply Rmult_le_pos; [auto|left; apply Rinv_0_lt_compat; auto]).
  destruct M as [M|M]; [rewrite cpow_pos by auto|rewrite <- M, cpow_0 by (apply Rdiv_lt_0_compat; lra)]; cbn; eauto.
Qed.
(** With a fractional exponent of the weight, a stress below the reference gives not-a-number. *)
Theorem C54_nan_refuted : exists k rs d, 0 < k_s0 k /\ 0 < k_p k /\ 0 < k_w k /\ all_points rs = [d] /\ 0 < d_J d /\
  functional PNorm k rs = Fault DivByZero.
Proof.
  set (d := mkDatum (uniaxial 0) 1 (fun _ => None) (fun _ _ => 0)).
  exists (mkCoef 2 (/ 2) 1 2), [[(0%N, [d])]], d. cbn [k_s0 k_p k_w d_J all_points flat_map points snd app]. repeat split; try lra; auto; [cbn; lra|].
  unfold functional. cbn [k_s0]. rewrite (proj2 (rltb_true 0 2)) by lra. cbn [assert_ over_ranks points flat_map snd app sum2].
  unfold term. rewrite von_mises_ok. cbn [d_s d bind]. rewrite uniaxial_0. unfold weight. cbn [k_s0 k_w].
  assert (C : cpow ((1 - 2) / 2) (/ 2) = Fault DivByZero); [|rewrite C; reflexivity].
  unfold cpow. rewrite (proj2 (rltb_false _ _)) by lra. rewrite (proj2 (reqb_false _ _)) by lra.
  assert (I : Int_part (/ 2) = 0%Z).
  { unfold Int_part. assert (up (/ 2) = 1%Z) as ->; auto. symmetry. apply tech_up; lra. }
  rewrite I. rewrite (proj2 (reqb_false _ _)) by lra. auto.
Qed.
Definition ex_coef : coef := mkCoef 2 1 1 (/ 2).
Definition ex_mp : mpoint := mkMp 1 uniaxial uniaxial'.
Definition ex_mp2 : mpoint := mkMp 2 (fun t => uniaxial (1 - t)) (fun k => - uniaxial' k).
Definition ex_moving : moving := [[(4%N, [ex_mp; ex_mp2])]; [(7%N, [ex_mp2])]].
Lemma ex_mp2_mises : mises (m_s ex_mp2 0) = 2.
Proof. cbn. rewrite uniaxial_mises. rewrite Rabs_pos_eq; lra. Qed.
Example C54_example : exists o, functional PNorm ex_coef (data_at 0 ex_moving 0) = Ok o /\ 1 <= t_norm o <= 2.
Proof.
  assert (B : forall d, In d (all_points (data_at 0 ex_moving 0)) -> 0 < d_J d /\ 1 <= mises (d_s d) <= 2).
  { intros d D. rewrite points_at in D. cbn [mpoints ex_moving flat_map snd app map] in D. pose proof ex_mp2_mises as M2. cbn in M2.
    destruct D as [<-|[<-|[<-|[]]]]; cbn [at_ d_s d_J ex_mp ex_mp2 m_J m_s]; rewrite ?uniaxial_0, ?M2; lra. }
  destruct (C54_total_partial ex_coef (data_at 0 ex_moving 0) 1) as (o & O); cbn [ex_coef k_s0 k_p k_w]; try lra; auto.
  - rewrite points_at. discriminate.
  - intros d D. apply B; auto.
  - exists o. split; auto. apply (C54_between_partial _ _ _ _ _ O B).
Qed.

(** ** C55 *)
(** Sensitivity with respect to a parameter: the number returned is the derivative of the output. *)
Theorem C55_parameter_sensitivity_partial kd k f M t0 : 0 < k_s0 k -> k_p k <> 0 -> mpoints M <> [] ->
  (forall m, In m (mpoints M) -> 0 < m_J m /\ moves_well m t0 /\ regular kd k (mises (m_s m t0))) ->
  (kd = PNorm -> exists m, In m (mpoints M) /\ 0 < mises (m_s m t0)) ->
  exists o v, functional kd k (data_at f M t0) = Ok o /\ sensitivity_total kd k o f false (data_at f M t0) [] = Ok v /\
    derivable_pt_lim (fun t => value kd k (data_at f M t)) t0 v /\
    near t0 (fun t => exists o', functional kd k (data_at f M t) = Ok o').
Proof.
  intros S0 P0 NE HM HP. destruct (output_deriv kd k f M t0 S0 P0 NE HM HP) as (o & c1 & c2 & h & A & B & C & D & E).
  exists o. eexists. split; auto. split; [|split; eauto]. unfold sensitivity_total.
  assert (R1 : sens_total kd k o f (data_at f M t0) = Ok (c1 * S1 h (all_points (data_at f M t0)) - c2 * S2 h (all_points (data_at f M t0)))).
  { apply (sum_ranks_lin _ h k (assemble kd k o) c1 c2 (data_at f M t0)); auto. }
  rewrite R1. reflexivity.
Qed.
Lemma dmises_still s ds v : (forall k, (k < 6)%nat -> ds k = 0) -> dmises s ds = Ok v -> v = 0.
Proof.
  intros Z H. unfold dmises in H. rbh H; [|injection H as <-; auto]. apply bind_ok in H. destruct H as (r & _ & H). injection H as <-.
  rewrite !Z by lia. ring.
Qed.
Lemma sens_term_still kd k d x : sens_term kd k d 0 = Ok x -> x = (0, 0).
Proof.
  unfold sens_term. rewrite von_mises_ok. cbn [bind]. destruct kd; intros H.
  - apply bind_ok in H. destruct H as (a & _ & H). apply bind_ok in H. destruct H as (b & _ & H). apply bind_ok in H. destruct H as (c & _ & H).
    apply bind_ok in H. destruct H as (e & _ & H). rbh H; injection H as <-; f_equal; unfold Rdiv; ring.
  - injection H as <-. f_equal; unfold Rdiv; ring.
  - apply bind_ok in H. destruct H as (a & _ & H). apply bind_ok in H. destruct H as (b & _ & H). apply bind_ok in H. destruct H as (c & _ & H).
    apply bind_ok in H. destruct H as (e & _ & H). injection H as <-; f_equal; unfold Rdiv; ring.
Qed.
Lemma lsum_zero {A} (g : A -> R) l : (forall x, In x l -> g x = 0) -> lsum (map g l) = 0.
Proof. induction l as [|a l IH]; intros H; cbn; auto. rewrite H by (left; auto). unfold lsum in IH. rewrite IH by (intros; apply H; right; auto). ring. Qed.
Lemma lsum_map_app {A} (g : A -> R) l1 l2 : lsum (map g (l1 ++ l2)) = lsum (map g l1) + lsum (map g l2).
Proof. rewrite map_app, lsum_app. auto. Qed.
(** Sensitivity with respect to a dof of one element: the stresses of the other elements do not move. *)
Theorem C55_state_sensitivity_partial kd k f R1 E1 id l E2 R2 t0 :
  let M := R1 ++ (E1 ++ (id, l) :: E2) :: R2 in
  0 < k_s0 k -> k_p k <> 0 -> mpoints M <> [] ->
  (forall m, In m (mpoints M) -> 0 < m_J m /\ moves_well m t0 /\ regular kd k (mises (m_s m t0))) ->
  (kd = PNorm -> exists m, In m (mpoints M) /\ 0 < mises (m_s m t0)) ->
  (forall m, In m (mpoints R1 ++ flat_map snd E1 ++ flat_map snd E2 ++ mpoints R2) -> forall i, (i < 6)%nat -> m_ds m i = 0) ->
  exists o v, functional kd k (data_at f M t0) = Ok o /\ dX_elem kd k o f (map (at_ f t0) l) = Ok v /\
    derivable_pt_lim (fun t => value kd k (data_at f M t)) t0 v.
Proof.
  intros M S0 P0 NE HM HP ST. destruct (output_deriv kd k f M t0 S0 P0 NE HM HP) as (o & c1 & c2 & h & A & B & C & D & E).
  assert (MP : mpoints M = (mpoints R1 ++ flat_map snd E1) ++ l ++ (flat_map snd E2 ++ mpoints R2)).
  { unfold M, mpoints. rewrite flat_map_app. cbn [flat_map]. rewrite flat_map_app. cbn [flat_map snd]. rewrite <- !app_assoc. auto. }
  assert (HZ : forall m, In m (mpoints R1 ++ flat_map snd E1 ++ flat_map snd E2 ++ mpoints R2) -> h (at_ f t0 m) = (0, 0)).
  { intros m Hm. assert (I : In m (mpoints M)) by (rewrite MP; rewrite !in_app_iff in *; tauto).
    assert (C' := C (at_ f t0 m)). rewrite points_at in C'. specialize (C' (in_map _ _ _ I)).
    apply bind_ok in C'. destruct C' as (de & D1 & D2). unfold dmises_dp, at_ in D1. cbn [d_ds d_s] in D1. rewrite Nat.eqb_refl in D1.
    assert (de = 0) as -> by (apply (dmises_still _ _ _ (ST m Hm) D1)). eapply sens_term_still; eauto. }
  rewrite points_at, MP in D.
  assert (Q1 : S1 h (map (at_ f t0) ((mpoints R1 ++ flat_map snd E1) ++ l ++ (flat_map snd E2 ++ mpoints R2))) = S1 h (map (at_ f t0) l)).
  { unfold S1. rewrite !map_map, !lsum_map_app.
    rewrite (lsum_zero _ (mpoints R1)), (lsum_zero _ (flat_map snd E1)), (lsum_zero _ (flat_map snd E2)), (lsum_zero _ (mpoints R2));
      try (intros x X; rewrite HZ; auto; rewrite !in_app_iff; tauto). ring. }
  assert (Q2 : S2 h (map (at_ f t0) ((mpoints R1 ++ flat_map snd E1) ++ l ++ (flat_map snd E2 ++ mpoints R2))) = S2 h (map (at_ f t0) l)).
  { unfold S2. rewrite !map_map, !lsum_map_app.
    rewrite (lsum_zero _ (mpoints R1)), (lsum_zero _ (flat_map snd E1)), (lsum_zero _ (flat_map snd E2)), (lsum_zero _ (mpoints R2));
      try (intros x X; rewrite HZ; auto; rewrite !in_app_iff; tauto). ring. }
  rewrite Q1, Q2 in D. exists o. eexists. split; auto. split; [|exact D].
  unfold dX_elem. rewrite (proj2 (rltb_true _ _) S0). cbn [assert_]. rewrite (sum2_ok _ h).
  - cbn [bind]. rewrite B. cbn [fst snd]. f_equal. ring.
  - intros d Hd. assert (Hd' := Hd). apply in_map_iff in Hd. destruct Hd as (m & <- & Hm). rewrite <- (C (at_ f t0 m)).
    + unfold dmises_dp, dmises_dX, at_. cbn [d_ds d_s d_dX]. rewrite Nat.eqb_refl. auto.
    + rewrite points_at, MP. apply in_map. rewrite !in_app_iff. auto.
Qed.
(** When all stresses vanish, the p-norm is zero and constant, but its sensitivity is not a number. *)
Theorem C55_zero_stress_refuted : exists k M f, 0 < k_s0 k /\ 1 <= k_p k /\ mpoints M <> [] /\
  (forall m, In m (mpoints M) -> 0 < m_J m /\ differentiable m 0 /\ forall t, mises (m_s m t) = 0) /\
  derivable_pt_lim (fun t => value PNorm k (data_at f M t)) 0 0 /\
  exists o, functional PNorm k (data_at f M 0) = Ok o /\ sensitivity_total PNorm k o f false (data_at f M 0) [] = Fault DivByZero.
Proof.
  set (m := mkMp 1 (fun _ _ => 0) (fun _ => 0)). exists (mkCoef 2 1 1 1), [[(0%N, [m])]], 0%nat. cbn [k_s0 k_p].
  assert (MZ : forall t, mises (m_s m t) = 0). { intros t. apply mises_zero. unfold quad. cbn. ring. }
  split; [lra|]. split; [lra|]. split; [discriminate|]. split.
  { intros x [<-|[]]. cbn [m m_J]. split; [lra|]. split; auto. intros i I. cbn. apply dCO. }
  set (k := mkCoef 2 1 1 1).
  assert (CP : cpow (-1) 1 = Ok (-1)) by (change (cpow (-1) (INR 1) = Ok (-1)); rewrite cpow_nat; f_equal; ring).
  assert (TK : forall t, term PNorm k (at_ 0 t m) = Ok (0, exp (-1))).
  { intros t. unfold term. rewrite von_mises_ok. cbn [at_ d_s d_J]. rewrite MZ. cbn [bind k k_s0 k_p k_w k_rho]. unfold weight. cbn [k k_s0 k_w k_rho].
    replace ((0 - 1) / 1) with (-1) by field. rewrite CP. cbn [bind].
    replace (1 * -1) with (-1) by ring. rewrite (proj2 (rltb_false exp_lim (-1))) by (unfold exp_lim; lra).
    replace (0 / 1) with 0 by field. rewrite cpow_0 by lra. cbn. f_equal. f_equal; ring. }
  assert (FN : forall t, functional PNorm k (data_at 0 [[(0%N, [m])]] t) = Ok (mkTot 0 (exp (-1)) 0)).
  { intros t. pose proof (exp_pos (-1)). unfold functional. cbn [data_at map fst snd k k_s0]. rewrite (proj2 (rltb_true 0 1)) by lra.
    cbn [assert_ over_ranks points flat_map snd app sum2]. fold k. rewrite TK. cbn [bind fst snd].
    replace (0 + 0 + 0) with 0 by ring. replace (0 + exp (-1) + 0) with (exp (-1)) by ring. rewrite rdiv_ok by lra. cbn [bind k k_p].
    rewrite rdiv_ok by lra. cbn [bind]. replace (0 / exp (-1)) with 0 by (field; lra). rewrite cpow_0 by lra. cbn [bind k k_s0]. do 2 f_equal. ring. }
  split.
  - eapply deriv_ext with (f := fun _ => 0); [|apply dCO]. apply near_all. intros t. unfold value. rewrite FN. auto.
  - exists (mkTot 0 (exp (-1)) 0). split; auto. pose proof (exp_pos (-1)).
    unfold sensitivity_total, sens_total. cbn [data_at map fst snd sum_ranks sum_elems]. unfold sens_elem. cbn [k k_s0].
    rewrite (proj2 (rltb_true 0 1)) by lra. cbn [assert_ sum2]. fold k.
    assert (DE : dmises_dp (at_ 0 0 m) 0 = Ok 0). { unfold dmises_dp, at_. cbn [d_ds Nat.eqb d_s]. apply dmises_zero. apply MZ. }
    rewrite DE. cbn [bind]. destruct (sens_term PNorm k (at_ 0 0 m) 0) as [x|e] eqn:ES.
    + cbn [bind]. unfold assemble. cbn [t_int t_J]. rewrite rdiv_ok by lra. cbn [bind k k_p]. rewrite rdiv_ok by lra. cbn [bind].
      replace (0 / exp (-1)) with 0 by (field; lra). unfold cpow. rewrite (proj2 (rltb_false 0 0)) by lra. rewrite (proj2 (reqb_true 0 0)) by lra.
      rewrite (proj2 (rltb_false 0 (1 / 2 - 1))) by lra. rewrite (proj2 (reqb_false (1 / 2 - 1) 0)) by lra. reflexivity.
    + cbn [bind]. f_equal. unfold sens_term in ES. rewrite von_mises_ok in ES. cbn [bind at_ d_s] in ES. rewrite MZ in ES. cbn [k k_s0 k_p k_w] in ES.
      replace (0 / 1) with 0 in ES by field. replace ((0 - 1) / 1) with (-1) in ES by field. rewrite cpow_0 in ES by lra. cbn [bind] in ES.
      rewrite cpow_0 in ES by lra. cbn [bind] in ES. rewrite CP in ES. cbn [bind] in ES.
      replace (1 - 1) with (INR 0) in ES by (cbn; ring). rewrite cpow_nat in ES. cbn [bind] in ES. rbh ES; discriminate.
Qed.
Example C55_example kd : 
  (forall m, In m (mpoints ex_moving) -> 0 < m_J m /\ moves_well m 0 /\ regular kd ex_coef (mises (m_s m 0))) /\
  (kd = PNorm -> exists m, In m (mpoints ex_moving) /\ 0 < mises (m_s m 0)).
Proof.
  assert (D2 : differentiable ex_mp2 0).
  { intros i I. cbn. destruct i; cbn; [|rewrite Ropp_0; apply dCO].
    eapply deriv_eq; [|apply dPL; [apply dCO|apply dMI; [apply dCO|apply derivable_pt_lim_id]]]. ring. }
  assert (D1 : differentiable ex_mp 0) by (intros i I; apply uniaxial_deriv; auto).
  assert (RG : forall e, 1 <= e <= 2 -> regular kd ex_coef e).
  { intros e H. destruct kd; cbn; auto; [|left; lra]. split; [left; lra|]. assert (0 < (e - / 2) / / 2) by (unfold Rdiv; rewrite Rinv_inv; lra). split; [left; auto|].
    intros v. rewrite cpow_pos by auto. rewrite Rpower_1 by auto. intros V. injection V as <-. unfold exp_lim, Rdiv. rewrite Rinv_inv. lra. }
  pose proof ex_mp2_mises as M2. split.
  - intros m H. cbn [mpoints ex_moving flat_map snd app] in H. destruct H as [<-|[<-|[<-|[]]]]; (split; [cbn; lra|split; [split; auto|]]).
    + cbn [ex_mp m_s]. rewrite uniaxial_0. intros; lra.
    + apply RG. cbn [ex_mp m_s]. rewrite uniaxial_0. lra.
    + rewrite M2. intros; lra.
    + apply RG. rewrite M2. lra.
    + rewrite M2. intros; lra.
    + apply RG. rewrite M2. lra.
  - intros _. exists ex_mp. split; [left; auto|]. cbn [ex_mp m_s]. rewrite uniaxial_0. lra.
Qed.

(** ** C56 *)
Theorem C56_ks k rs M : 0 < k_s0 k -> 0 < k_p k -> (forall d, In d (all_points rs) -> 0 < d_J d) ->
  (exists d, In d (all_points rs) /\ (mises (d_s d) - k_s0 k) / k_s0 k = M) ->
  (forall d, In d (all_points rs) -> (mises (d_s d) - k_s0 k) / k_s0 k <= M) ->
  exists o, functional KS k rs = Ok o /\ t_norm o <= M /\
  forall d, In d (all_points rs) -> (mises (d_s d) - k_s0 k) / k_s0 k = M ->
    M + 1 / k_p k * ln (d_J d / lsum (map d_J (all_points rs))) <= t_norm o.
Proof.
  intros S0 P J (d0 & D0 & _) HM. assert (NE : all_points rs <> []) by (destruct (all_points rs); [destruct D0|congruence]).
  destruct (ks_total k rs S0 ltac:(lra) NE J) as (A & B & C). destruct (ks_bounds k rs M S0 P NE J HM) as (U & L).
  eexists. split; [exact C|]. cbn [t_norm]. split; auto. intros d D <-. auto.
Qed.
(** As p grows, the output converges to the largest excess. *)
Theorem C56_converges w rho s0 rs M : 0 < s0 -> (forall d, In d (all_points rs) -> 0 < d_J d) ->
  (exists d, In d (all_points rs) /\ (mises (d_s d) - s0) / s0 = M) ->
  (forall d, In d (all_points rs) -> (mises (d_s d) - s0) / s0 <= M) ->
  forall eps, 0 < eps -> exists P, forall p, P < p -> exists o, functional KS (mkCoef p w rho s0) rs = Ok o /\ M - eps < t_norm o <= M.
Proof.
  intros S0 J (d0 & D0 & E0) HM eps EP. set (c := ln (d_J d0 / lsum (map d_J (all_points rs)))).
  exists (Rmax 0 (Rabs c / eps)). intros p Pp. assert (P0 : 0 < p) by (eapply Rle_lt_trans; [apply Rmax_l|exact Pp]).
  assert (P1 : Rabs c / eps < p) by (eapply Rle_lt_trans; [apply Rmax_r|exact Pp]).
  destruct (C56_ks (mkCoef p w rho s0) rs M) as (o & O & U & L); eauto.
  exists o. split; auto. split; auto. specialize (L d0 D0 E0). cbn [k_p] in L. fold c in L. eapply Rlt_le_trans; [|exact L].
  assert (Rabs c < p * eps).
  { apply (Rmult_lt_reg_r (/ eps)); [apply Rinv_0_lt_compat; auto|]. replace (p * eps * / eps) with p by (field; lra). exact P1. }
  assert (- c < p * eps). { eapply Rle_lt_trans; [|eassumption]. rewrite <- Rabs_Ropp. apply Rle_abs. }
  apply (Rmult_lt_reg_l p); auto. replace (p * (M + 1 / p * c)) with (p * M + c) by (field; lra). lra.
Qed.
Example C56_example : exists o, functional KS ex_coef (data_at 0 ex_moving 0) = Ok o /\ t_norm o <= 3.
Proof.
  destruct (C56_ks ex_coef (data_at 0 ex_moving 0) 3) as (o & A & B & _); try (cbn; lra).
  - rewrite points_at. intros d D. cbn [mpoints ex_moving flat_map snd app map] in D. destruct D as [<-|[<-|[<-|[]]]]; cbn; lra.
  - exists (at_ 0 0 ex_mp2). rewrite points_at. split; [right; left; auto|]. unfold at_. cbn [d_s]. rewrite ex_mp2_mises. cbn. field.
  - rewrite points_at. intros d D. cbn [mpoints ex_moving flat_map snd app map] in D. unfold Rdiv. cbn [ex_coef k_s0]. rewrite Rinv_inv.
    pose proof ex_mp2_mises as M2. cbn in M2. destruct D as [<-|[<-|[<-|[]]]]; cbn [at_ d_s ex_mp ex_mp2 m_s]; rewrite ?uniaxial_0, ?M2; lra.
  - exists o. auto.
Qed.

(** ** C76: the smooth ramp output *)
Theorem C76_ramp k rs : 0 < k_s0 k -> 0 < k_p k -> (forall d, In d (all_points rs) -> 0 < d_J d) ->
  exists o, functional Ramp k rs = Ok o /\
   lsum (map (fun d => (Rmax 1 (mises (d_s d) / k_s0 k) - 1) * d_J d) (all_points rs)) <= t_norm o <=
   lsum (map (fun d => (Rpower 2 (1 / k_p k) * Rmax 1 (mises (d_s d) / k_s0 k) - 1) * d_J d) (all_points rs)).
Proof.
  intros S0 P J. set (y := fun d => Rpower (1 + cpv (mises (d_s d) / k_s0 k) (k_p k)) (1 / k_p k)).
  assert (TV : forall d, tv Ramp k d = (y d * d_J d, d_J d)) by (intros d; apply tv_ok, ramp_tv; auto).
  rewrite functional_run by (auto; intros d D; rewrite TV; apply ramp_tv; auto). unfold finish. cbn [fst snd]. eexists. split; [reflexivity|]. cbn [t_norm].
  assert (E : T1 Ramp k rs - T2 Ramp k rs = lsum (map (fun d => (y d - 1) * d_J d) (all_points rs))).
  { unfold T1, T2, S1, S2. rewrite (map_ext (fun d => (y d - 1) * d_J d) (fun d => fst (tv Ramp k d) + (-1) * snd (tv Ramp k d))) by (intros d; rewrite TV; cbn; ring).
    rewrite lsum_map_plus, lsum_map_scal. ring. }
  rewrite E. assert (RB : forall d, Rmax 1 (mises (d_s d) / k_s0 k) <= y d <= Rpower 2 (1 / k_p k) * Rmax 1 (mises (d_s d) / k_s0 k)).
  { intros d. apply ramp_bounds; auto. apply Rmult_le_pos; [apply mises_pos|left; apply Rinv_0_lt_compat; auto]. }
  split; apply lsum_map_le; intros d D; specialize (RB d); apply Rmult_le_compat_r; try lra; left; apply J; auto.
Qed.
Example C76_example : exists o, functional Ramp ex_coef (data_at 0 ex_moving 0) = Ok o /\ 0 <= t_norm o.
Proof.
  destruct (C76_ramp ex_coef (data_at 0 ex_moving 0)) as (o & A & B & _); try (cbn; lra).
  - rewrite points_at. intros d D. cbn [mpoints ex_moving flat_map snd app map] in D. destruct D as [<-|[<-|[<-|[]]]]; cbn; lra.
  - exists o. split; auto. eapply Rle_trans; [|exact B]. apply lsum_map_nonneg. intros d D. apply Rmult_le_pos.
    + pose proof (Rmax_l 1 (mises (d_s d) / k_s0 ex_coef)). lra.
    + rewrite points_at in D. cbn [mpoints ex_moving flat_map snd app map] in D. destruct D as [<-|[<-|[<-|[]]]]; cbn; lra.
Qed.

(** ** C77: topology sensitivity *)
Lemma term_scale kd k s J J' ds dX ds' dX' x : term kd k (mkDatum s J ds dX) = Ok x -> exists a b, x = (a * J, b * J) /\ term kd k (mkDatum s J' ds' dX') = Ok (a * J', b * J').
Proof.
  unfold term. cbn [d_s d_J]. rewrite von_mises_ok. cbn [bind]. destruct kd; intros H.
  - apply bind_ok in H. destruct H as (w & W & H). apply bind_ok in H. destruct H as (y & Y & H). injection H as <-.
    rewrite W. cbn [bind]. rewrite Y. cbn [bind]. exists (y * w), w. auto.
  - injection H as <-. eexists _, 1. split; f_equal; [|f_equal]; rewrite ?Rmult_1_l; reflexivity.
  - apply bind_ok in H. destruct H as (y & Y & H). apply bind_ok in H. destruct H as (i & I & H). apply bind_ok in H. destruct H as (z & Z & H). injection H as <-.
    rewrite Y. cbn [bind]. rewrite I. cbn [bind]. rewrite Z. cbn [bind]. exists z, 1. split; f_equal; [|f_equal]; rewrite ?Rmult_1_l; reflexivity.
Qed.
Lemma points_layer t bs : all_points (layer t bs) = map (fun d => mkDatum (d_s d) (t * d_J d) (d_ds d) (d_dX d)) (all_points bs).
Proof.
  unfold all_points, layer, points. induction bs as [|r M IH]; auto. cbn [map flat_map]. rewrite IH, map_app. f_equal.
  clear. induction r as [|e r IH]; auto. cbn [map flat_map fst snd]. rewrite map_app, IH. auto.
Qed.
Lemma tv_layer kd k t d : term kd k d = Ok (tv kd k d) -> let d' := mkDatum (d_s d) (t * d_J d) (d_ds d) (d_dX d) in
  term kd k d' = Ok (tv kd k d') /\ tv kd k d' = (t * fst (tv kd k d), t * snd (tv kd k d)).
Proof.
  intros T d'. destruct d as [s J ds dX]. destruct (term_scale kd k s J (t * J) ds dX ds dX _ T) as (a & b & E & F).
  unfold d'. cbn [d_s d_J d_ds d_dX]. rewrite (tv_ok _ _ _ _ F). split; auto. rewrite E. cbn [fst snd]. f_equal; ring.
Qed.
Theorem C77_topology_sensitivity kd k f o rs bs : functional kd k rs = Ok o -> k_p k <> 0 -> all_points rs <> [] ->
  (forall d, In d (all_points rs) -> 0 < d_J d /\ d_ds d f = None) ->
  (kd = PNorm -> exists d, In d (all_points rs) /\ 0 < mises (d_s d)) ->
  (forall v, sensitivity_total kd k o f false rs bs = Ok v -> v = 0) /\
  ((forall d, In d (all_points bs) -> exists x, term kd k d = Ok x) ->
   exists b, derivable_pt_lim (fun t => value kd k (rs ++ layer t bs)) 0 b /\
    (forall v, sensitivity_total kd k o f false rs bs = Ok v -> sensitivity_total kd k o f true rs bs = Ok b)).
Proof.
  intros H P0 NE J HP. destruct (functional_inv _ _ _ _ H) as (S0 & TK & FN).
  assert (Z0 : forall v, sens_total kd k o f rs = Ok v -> v = 0).
  { intros v V. destruct (sum_ranks_inv k (fun d => de <- dmises_dp d f ;; sens_term kd k d de) (assemble kd k o) rs v V NE) as (_ & (s & v' & A) & T).
    destruct (assemble_lin _ _ _ _ _ A) as (c1 & c2 & L).
    assert (Z : forall d, In d (all_points rs) -> (de <- dmises_dp d f ;; sens_term kd k d de) = Ok (0, 0)).
    { intros d D. destruct (T d D) as (y & Y). rewrite Y. f_equal. unfold dmises_dp in Y. rewrite (proj2 (J d D)) in Y. cbn [bind] in Y. eapply sens_term_still; eauto. }
    pose proof (sum_ranks_lin _ (fun _ => (0, 0)) k (assemble kd k o) c1 c2 rs S0 L Z) as Q. change (sens_total kd k o f rs = Ok (c1 * S1 (fun _ : datum => (0, 0)) (all_points rs) - c2 * S2 (fun _ : datum => (0, 0)) (all_points rs))) in Q.
    rewrite Q in V. injection V as <-.
    unfold S1, S2. rewrite !lsum_zero by auto. ring. }
  split.
  { intros v V. unfold sensitivity_total in V. apply bind_ok in V. destruct V as (w & V & E). injection E as <-. auto. }
  intros BT. destruct (totals_pos kd k rs S0 (fun d D => proj1 (J d D)) NE TK) as (GP & _ & FP). specialize (FP HP).
  assert (BT' : forall d, In d (all_points bs) -> term kd k d = Ok (tv kd k d)).
  { intros d D. destruct (BT d D) as (x & X). rewrite (tv_ok _ _ _ _ X). auto. }
  set (b1 := S1 (tv kd k) (all_points bs)). set (b2 := S2 (tv kd k) (all_points bs)).
  assert (AP : forall t, all_points (rs ++ layer t bs) = all_points rs ++ all_points (layer t bs)) by (intros; apply flat_map_app).
  assert (TA : forall t d, In d (all_points (rs ++ layer t bs)) -> term kd k d = Ok (tv kd k d)).
  { intros t d D. rewrite AP, in_app_iff in D. destruct D as [D|D]; auto. rewrite points_layer in D. apply in_map_iff in D. destruct D as (e & <- & D).
    apply (tv_layer kd k t e); auto. }
  assert (E1 : forall t, T1 kd k (rs ++ layer t bs) = T1 kd k rs + t * b1).
  { intros t. unfold T1, b1, S1. rewrite AP, lsum_map_app. f_equal. rewrite points_layer, map_map. rewrite <- lsum_map_scal. f_equal. apply map_ext_in.
    intros d D. destruct (tv_layer kd k t d (BT' d D)) as (_ & ->). auto. }
  assert (E2 : forall t, T2 kd k (rs ++ layer t bs) = T2 kd k rs + t * b2).
  { intros t. unfold T2, b2, S2. rewrite AP, lsum_map_app. f_equal. rewrite points_layer, map_map. rewrite <- lsum_map_scal. f_equal. apply map_ext_in.
    intros d D. destruct (tv_layer kd k t d (BT' d D)) as (_ & ->). auto. }
  destruct (finish_tot _ _ _ _ FN) as (O1 & O2). cbn [fst snd] in O1, O2.
  assert (LD : forall a b, derivable_pt_lim (fun t => a + t * b) 0 b).
  { intros a b. eapply deriv_eq; [|apply dPL; [apply dCO|apply (dMU (fun t => t) (fun _ => b) 0 1 0); [apply derivable_pt_lim_id|apply dCO]]]. cbn beta. ring. }
  destruct (finish_deriv kd k (fun t => T1 kd k rs + t * b1) (fun t => T2 kd k rs + t * b2) 0 b1 b2 o S0 P0 (LD _ _) (LD _ _)) as (c1 & c2 & A1 & A2 & A3);
    try (rewrite Rmult_0_l, Rplus_0_r; auto).
  exists (c1 * b1 - c2 * b2). split.
  - eapply deriv_ext; [|exact A2]. apply near_all. intros t. cbn beta. rewrite (value_run _ _ _ S0 (TA t)). rewrite E1, E2. auto.
  - intros v V. unfold sensitivity_total in V. apply bind_ok in V. destruct V as (w & V & E). unfold sensitivity_total.
    rewrite V, (Z0 w V). cbn [bind].
    pose proof (sum_ranks_lin (term kd k) (tv kd k) k (assemble kd k o) c1 c2 bs S0 A1 BT') as Q. fold (bnd_elem kd k o) in Q.
    assert (Q' : bnd_total kd k o bs = Ok (c1 * b1 - c2 * b2)) by exact Q.
    rewrite Q'. cbn [bind]. f_equal. ring.
Qed.
Example C77_example : let d := mkDatum (uniaxial 0) 1 (fun _ => None) (fun _ _ => 0) in
  exists o, functional KS ex_coef [[(0%N, [d])]] = Ok o /\
  exists b, derivable_pt_lim (fun t => value KS ex_coef ([[(0%N, [d])]] ++ layer t [[(0%N, [d])]])) 0 b /\
    (forall v, sensitivity_total KS ex_coef o 0%nat false [[(0%N, [d])]] [[(0%N, [d])]] = Ok v ->
       sensitivity_total KS ex_coef o 0%nat true [[(0%N, [d])]] [[(0%N, [d])]] = Ok b).
Proof.
  intros d. destruct (ks_total ex_coef [[(0%N, [d])]]) as (_ & _ & F); try (cbn; lra); try discriminate.
  { intros x [<-|[]]. cbn. lra. }
  eexists. split; [exact F|]. apply (C77_topology_sensitivity KS ex_coef 0%nat _ _ _ F); try (cbn; lra); try discriminate.
  - intros x [<-|[]]. cbn. split; [lra|auto].
  - intros x [<-|[]]. unfold term. rewrite von_mises_ok. cbn. eauto.
Qed.

(** ** C78: distribution of the elements *)
Theorem C78_output_distribution kd k rs rs' : Permutation (all_points rs) (all_points rs') -> functional kd k rs = functional kd k rs'.
Proof. apply functional_perm. Qed.
Theorem C78_sensitivity_distribution kd k o f rs rs' v : Permutation (all_points rs) (all_points rs') -> all_points rs <> [] ->
  sens_total kd k o f rs = Ok v -> sens_total kd k o f rs' = Ok v.
Proof. apply sens_perm. Qed.
Theorem C78_maximum rs : exists r, max_stress rs = Ok r /\ (forall d, In d (all_points rs) -> mises (d_s d) <= r) /\
  (all_points rs <> [] -> exists d, In d (all_points rs) /\ r = mises (d_s d)).
Proof.
  assert (K : exists r, max_stress rs = Ok r /\ 0 <= r /\ (forall d, In d (all_points rs) -> mises (d_s d) <= r) /\
    (r = 0 \/ exists d, In d (all_points rs) /\ r = mises (d_s d))).
  { induction rs as [|t rs (r & A & B & C & D)]; cbn [max_stress].
    - exists 0. split; auto. split; [lra|]. split; [intros d []|auto].
    - destruct (max_points_spec (points t) 0) as (q & E & F & G & H). rewrite E, A. cbn [bind]. exists (Rmax q r). split; auto.
      split; [eapply Rle_trans; [exact F|apply Rmax_l]|]. split.
      + intros d X. unfold all_points in X. cbn in X. apply in_app_iff in X. destruct X as [X|X].
        * eapply Rle_trans; [apply G; auto|apply Rmax_l].
        * eapply Rle_trans; [apply C; auto|apply Rmax_r].
      + unfold all_points. cbn [flat_map]. destruct (Rle_dec q r) as [Q|Q].
        * rewrite Rmax_right by auto. destruct D as [D|(d & X & Y)]; auto. right. exists d. split; auto. apply in_app_iff. auto.
        * rewrite Rmax_left by lra. destruct H as [H|(d & X & Y)]; auto. right. exists d. split; auto. apply in_app_iff. auto. }
  destruct K as (r & A & B & C & D). exists r. split; auto. split; auto. intros NE. destruct D as [->|D]; auto.
  destruct (all_points rs) as [|d l] eqn:E; [congruence|]. exists d. split; [left; auto|]. specialize (C d (or_introl eq_refl)). pose proof (mises_pos (d_s d)). lra.
Qed.
Example C78_example : all_points [[(1%N, [at_ 0 0 ex_mp; at_ 0 0 ex_mp2])]; []] = [at_ 0 0 ex_mp; at_ 0 0 ex_mp2] /\
  Permutation (all_points [[(1%N, [at_ 0 0 ex_mp; at_ 0 0 ex_mp2])]; []]) (all_points [[(8%N, [at_ 0 0 ex_mp2])]; [(2%N, [at_ 0 0 ex_mp])]]).
Proof. split; [reflexivity|]. apply perm_swap. Qed.

(** ** C79: output_total() over call histories *)
Lemma add_point_perm t e qp d t' : add_point t e qp d = Ok t' -> Permutation (points t') (points t ++ [d]).
Proof.
  revert t'. induction t as [|[e' l] t IH]; intros t' H; cbn [add_point] in H.
  - injection H as <-. cbn. auto.
  - destruct (e =? e')%N.
    + apply assert_ok in H. destruct H as (_ & H). injection H as <-. unfold points. cbn [flat_map snd]. rewrite <- !app_assoc.
      apply Permutation_app_head. apply Permutation_app_comm.
    + apply bind_ok in H. destruct H as (r & R & H). injection H as <-. unfold points. cbn [flat_map snd]. rewrite <- app_assoc.
      apply Permutation_app_head. apply IH; auto.
Qed.
Definition fresh_out (kd : kind) (k : coef) (l : list datum) (o : out) : Prop :=
  o_kind o = kd /\ o_coef o = k /\ Permutation (points (o_data o)) l /\
  (o_init o = true -> functional (o_kind o) (o_coef o) [o_data o] = Ok (o_tot o)).
Lemma calls_fresh l : forall kd k a o o', quiet (o_init o) l -> fresh_out kd k a o -> do_calls l o = Ok o' ->
  fresh_out kd (fold_left (fun k c => match c with CCoef k' => k' | _ => k end) l k)
    (fold_left (fun acc c => match c with CAdd _ _ d => acc ++ [d] | CClear => [] | _ => acc end) l a) o'.
Proof.
  induction l as [|c l IH]; intros kd k a o o' Q F H; cbn [do_calls] in H.
  - injection H as <-. auto.
  - apply bind_ok in H. destruct H as (o1 & O1 & H). cbn [fold_left]. destruct F as (F1 & F2 & F3 & F4).
    destruct c as [k'|b| |e qp d| |]; cbn [do_call quiet] in *.
    + destruct Q as (Q1 & Q2). injection O1 as <-. eapply IH; [| |exact H]; auto. split; auto. cbn. split; auto. split; auto. rewrite Q1. discriminate.
    + injection O1 as <-. eapply IH; [| |exact H]; auto. split; auto.
    + destruct Q as (Q1 & Q2). injection O1 as <-. eapply IH; [| |exact H]; auto. split; auto. cbn. split; auto. split; auto. rewrite Q1. discriminate.
    + apply assert_ok in O1. destruct O1 as (I & O1). apply negb_true_iff in I. apply bind_ok in O1. destruct O1 as (t & T & O1). injection O1 as <-.
      eapply IH; [| |exact H]; auto. split; auto. cbn. split; auto. split; [|rewrite I; discriminate].
      eapply Permutation_trans; [eapply add_point_perm; eauto|]. apply Permutation_app_tail; auto.
    + apply assert_ok in O1. destruct O1 as (PL & O1). destruct (o_init o) eqn:I.
      * injection O1 as <-. eapply IH; [| |exact H]; [rewrite I; auto|]. split; auto.
      * apply bind_ok in O1. destruct O1 as (t & T & O1). injection O1 as <-. eapply IH; [| |exact H]; auto. split; auto.
    + injection O1 as <-. eapply IH; [| |exact H]; auto. split; auto. cbn. split; auto. split; auto. discriminate.
Qed.
(** For histories in which the coefficients are set, and zero_for_analysis() is called, only before
    output_total() or after clear(), output_total() returns the output of the points added since the
    last clear(), for the coefficients last set. *)
Theorem C79_current_partial kd l o : quiet false l -> do_calls l (out0 kd) = Ok o -> o_plot o = false ->
  output_total o = (t <- functional kd (last_coef l (mkCoef 2 1 1 0)) [[(0%N, added l)]] ;; Ok (t_norm t)).
Proof.
  intros Q H PL. destruct (calls_fresh l kd (mkCoef 2 1 1 0) [] (out0 kd) o Q) as (A & B & C & D); auto.
  { split; auto. cbn. split; auto. split; auto. discriminate. }
  fold (last_coef l (mkCoef 2 1 1 0)) in B. fold (added l) in C.
  assert (E : functional kd (last_coef l (mkCoef 2 1 1 0)) [[(0%N, added l)]] = functional (o_kind o) (o_coef o) [o_data o]).
  { rewrite A, B. apply functional_perm. unfold all_points. cbn [flat_map points snd]. rewrite !app_nil_r. apply Permutation_sym; auto. }
  rewrite E. unfold output_total, do_call. rewrite PL. cbn [negb assert_]. destruct (o_init o) eqn:I.
  - rewrite (D eq_refl). cbn. auto.
  - destruct (functional (o_kind o) (o_coef o) [o_data o]); auto.
Qed.
(** No point is counted twice: for each element, the points after the first one added since the last
    clear() are numbered 1, 2, ... in the order of the calls; any other number is refused. *)
Fixpoint pts (e : N) (t : store) : nat :=
  match t with [] => 0%nat | (e', l) :: r => if (e =? e')%N then length l else pts e r end.
Lemma add_point_pts t e qp d t' : (forall el, In el t -> snd el <> []) -> add_point t e qp d = Ok t' ->
  (forall el, In el t' -> snd el <> []) /\ (forall e', pts e' t' = if (e' =? e)%N then S (pts e' t) else pts e' t) /\
  (pts e t = 0%nat \/ qp = pts e t).
Proof.
  revert t'. induction t as [|[e' l] t IH]; intros t' P H; cbn [add_point] in H.
  - injection H as <-. split; [|split; [|left; auto]].
    + intros el [<-|[]]. cbn. discriminate.
    + intros x. cbn. destruct (x =? e)%N; auto.
  - destruct (e =? e')%N eqn:E.
    + apply assert_ok in H. destruct H as (Q & H). injection H as <-. apply Nat.eqb_eq in Q. apply N.eqb_eq in E. subst e'. split; [|split].
      * intros el [<-|I]; [cbn; destruct l; discriminate|apply P; right; auto].
      * intros x. cbn. destruct (x =? e)%N; auto. rewrite app_length. cbn. rewrite Nat.add_1_r. auto.
      * right. cbn. rewrite N.eqb_refl. auto.
    + apply bind_ok in H. destruct H as (r & R & H). injection H as <-.
      destruct (IH r) as (A & B & C); auto. { intros el I. apply P. right; auto. }
      split; [|split].
      * intros el [<-|I]; auto. apply (P (e', l)). left; auto.
      * intros x. cbn. rewrite B. destruct (x =? e')%N eqn:X; auto. apply N.eqb_eq in X. subst x. rewrite N.eqb_sym, E. auto.
      * cbn. rewrite E. auto.
Qed.
Lemma calls_numbers e l : forall a o o', (forall el, In el (o_data o) -> snd el <> []) ->
  length a = pts e (o_data o) -> (a = [] \/ exists q, a = q :: seq 1 (length a - 1)) ->
  do_calls l o = Ok o' ->
  let a' := fold_left (fun acc c => match c with CAdd e' qp _ => if N.eqb e' e then acc ++ [qp] else acc | CClear => [] | _ => acc end) l a in
  a' = [] \/ exists q, a' = q :: seq 1 (length a' - 1).
Proof.
  induction l as [|c l IH]; intros a o o' P L A H; cbn [do_calls] in H; [auto|].
  apply bind_ok in H. destruct H as (o1 & O1 & H). cbn [fold_left]. cbv zeta in *.
  destruct c as [k'|b| |e' qp d| |]; cbn [do_call] in O1.
  1-3: injection O1 as <-; eapply IH; [| | |exact H]; auto.
  - apply assert_ok in O1. destruct O1 as (_ & O1). apply bind_ok in O1. destruct O1 as (t & T & O1). injection O1 as <-.
    destruct (add_point_pts _ _ _ _ _ P T) as (P' & B & C). eapply IH; [| | |exact H]; cbn [o_data]; auto.
    + rewrite B. rewrite N.eqb_sym. destruct (e =? e')%N; auto. rewrite app_length, L. cbn. rewrite Nat.add_1_r. auto.
    + destruct (e' =? e)%N eqn:E; auto. apply N.eqb_eq in E. subst e'. right. rewrite <- L in C. destruct A as [->|(q & A)].
      * exists qp. reflexivity.
      * exists q. destruct C as [C|C]; [rewrite A in C; discriminate C|]. rewrite app_length. cbn [length].
        remember (length a) as n. destruct n as [|n]; [rewrite A in Heqn; discriminate Heqn|].
        replace (S n - 1)%nat with n in A by (rewrite <- (Nat.sub_0_r n) at 1; reflexivity).
        replace (S n + 1 - 1)%nat with (S n) by (rewrite Nat.add_sub; auto). rewrite seq_S. rewrite A, C. reflexivity.
  - apply assert_ok in O1. destruct O1 as (_ & O1). destruct (o_init o).
    + injection O1 as <-. eapply IH; [| | |exact H]; auto.
    + apply bind_ok in O1. destruct O1 as (t & T & O1). injection O1 as <-. eapply IH; [| | |exact H]; auto.
  - injection O1 as <-. eapply IH; [| | |exact H]; auto.
Qed.
Theorem C79_points_once kd l o e : do_calls l (out0 kd) = Ok o ->
  numbers e l = [] \/ exists q, numbers e l = q :: seq 1 (length (numbers e l) - 1).
Proof. intros H. apply (calls_numbers e l [] (out0 kd) o); auto. Qed.
Example C79_points_example d : let l := [CAdd 3%N 0 d; CAdd 4%N 0 d; CAdd 3%N 1 d; CAdd 3%N 2 d; CAdd 4%N 1 d] in
  (exists o, do_calls l (out0 KS) = Ok o) /\ numbers 3%N l = [0; 1; 2]%nat /\ numbers 4%N l = [0; 1]%nat /\
  do_calls (l ++ [CAdd 3%N 1 d]) (out0 KS) = Fault AssertFailed.
Proof. cbn. split; [eexists; reflexivity|]. repeat split. Qed.

(** Setting the coefficients after the first evaluation leaves the old value. *)
Theorem C79_stale_refuted : exists l o v w, do_calls l (out0 KS) = Ok o /\ output_total o = Ok v /\
  (t <- functional KS (last_coef l (mkCoef 2 1 1 0)) [[(0%N, added l)]] ;; Ok (t_norm t)) = Ok w /\ v <> w.
Proof.
  set (d := mkDatum (uniaxial 0) 1 (fun _ => None) (fun _ _ => 0)).
  assert (F : forall s0, 0 < s0 -> exists o, functional KS (mkCoef 1 1 1 s0) [[(0%N, [d])]] = Ok o /\ t_norm o = (1 - s0) / s0).
  { intros s0 S0. assert (Z : 0 < s0) by auto. destruct (ks_total (mkCoef 1 1 1 s0) [[(0%N, [d])]]) as (_ & _ & F); try (cbn; lra); try discriminate.
    { intros x [<-|[]]. cbn. lra. }
    eexists. split; [exact F|]. cbn [t_norm k_p]. unfold T1, T2, S1, S2. cbn [all_points flat_map points snd app map]. rewrite ks_tv.
    cbn [fst snd d_J d lsum fold_right d_s k_p k_s0]. rewrite uniaxial_0. unfold lsum. cbn [fold_right].
    replace ((exp (1 * (1 - s0) / s0) * 1 + 0) / (1 + 0)) with (exp (1 * (1 - s0) / s0)) by field. rewrite ln_exp. field. lra. }
  destruct (F 1 ltac:(lra)) as (o1 & A1 & B1). destruct (F 2 ltac:(lra)) as (o2 & A2 & B2).
  exists [CCoef (mkCoef 1 1 1 1); CAdd 0%N 0 d; CTotal; CCoef (mkCoef 1 1 1 2)]. eexists. exists (t_norm o1), (t_norm o2).
  split.
  { cbn [do_calls do_call out0 o_init o_plot o_kind o_coef o_data o_bnd negb assert_ add_point bind].
    match goal with |- context [functional ?a ?b ?c] => replace (functional a b c) with (Ok o1) by (symmetry; exact A1) end. cbn [bind]. reflexivity. }
  split; [reflexivity|]. split.
  - transitivity (t <- Ok o2 ;; Ok (t_norm t)); [f_equal; exact A2|reflexivity].
  - rewrite B1, B2. lra.
Qed.
(** zero_for_analysis() after an evaluation makes output_total() return zero whatever the stresses. *)
Theorem C79_zeroed_refuted kd l o : do_calls l (out0 kd) = Ok o -> o_init o = true -> o_plot o = false ->
  exists o', do_calls (l ++ [CZero]) (out0 kd) = Ok o' /\ output_total o' = Ok 0.
Proof.
  intros H I P. eexists. split.
  - assert (E : forall l1 l2 o, do_calls (l1 ++ l2) o = (o1 <- do_calls l1 o ;; do_calls l2 o1)).
    { induction l1 as [|c l1 IH]; intros; cbn; auto. destruct (do_call c o0); cbn; auto. }
    rewrite E, H. cbn. reflexivity.
  - unfold output_total, do_call. cbn. rewrite P, I. reflexivity.
Qed.
Example C79_example : let d := at_ 0 0 ex_mp in let l := [CCoef ex_coef; CZero; CAdd 0%N 0 d; CClear; CZero; CAdd 3%N 0 d; CAdd 3%N 1 d] in
  quiet false l /\ added l = [d; d] /\ last_coef l (mkCoef 2 1 1 0) = ex_coef /\ exists o, do_calls l (out0 KS) = Ok o /\ o_plot o = false.
Proof. cbn. repeat split. eexists. split; reflexivity. Qed.

Print Assumptions C53_von_mises.
Print Assumptions C53_hydrostatic.
Print Assumptions C53_homogeneous.
Print Assumptions C53_zero.
Print Assumptions C53_sensitivity.
Print Assumptions C53_sensitivity_zero.
Print Assumptions C54_between_partial.
Print Assumptions C54_total_partial.
Print Assumptions C54_nan_refuted.
Print Assumptions C55_parameter_sensitivity_partial.
Print Assumptions C55_state_sensitivity_partial.
Print Assumptions C55_zero_stress_refuted.
Print Assumptions C56_ks.
Print Assumptions C56_converges.
Print Assumptions C76_ramp.
Print Assumptions C77_topology_sensitivity.
Print Assumptions C78_output_distribution.
Print Assumptions C78_sensitivity_distribution.
Print Assumptions C78_maximum.
Print Assumptions C79_current_partial.
Print Assumptions C79_points_once.
Print Assumptions C79_stale_refuted.
Print Assumptions C79_zeroed_refuted.
