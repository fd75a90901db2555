(** From points to outputs. *)
From Coq Require Import List Arith NArith ZArith Lia Reals Lra Bool Permutation.
From Verif Require Import Base BaseLemmas RBool Stre_Model Stre_Spec Stre_Proofs Stre_Proofs2.
Import ListNotations.
Open Scope R_scope.

Lemma rdiv_ok a b : b <> 0 -> rdiv a b = Ok (a / b).
Proof. intros H. unfold rdiv. rewrite (proj2 (reqb_false _ _) H). auto. Qed.
Lemma rdiv_inv a b v : rdiv a b = Ok v -> b <> 0 /\ v = a / b.
Proof. unfold rdiv. intros H. rbh H; [discriminate|]. injection H as <-. auto. Qed.
Lemma bind_ok {A B} (m : outcome A) (g : A -> outcome B) b : bind m g = Ok b -> exists a, m = Ok a /\ g a = Ok b.
Proof. destruct m as [a|]; cbn; [eauto|discriminate]. Qed.
Lemma assert_ok {A} b (m : outcome A) a : assert_ b m = Ok a -> b = true /\ m = Ok a.
Proof. unfold assert_. destruct b; [auto|discriminate]. Qed.

(** ** Loops *)
Section Sums.
Variable tm : datum -> outcome (R * R).
Variable g : datum -> R * R.
Definition S1 l := lsum (map (fun d => fst (g d)) l).
Definition S2 l := lsum (map (fun d => snd (g d)) l).
Lemma sum2_ok l : forall acc, (forall d, In d l -> tm d = Ok (g d)) -> sum2 tm l acc = Ok (fst acc + S1 l, snd acc + S2 l).
Proof.
  induction l as [|d l IH]; intros acc H; cbn [sum2].
  - unfold S1, S2. cbn. rewrite !Rplus_0_r. destruct acc; auto.
  - rewrite (H d (or_introl eq_refl)). cbn [bind]. rewrite IH by (intros; apply H; right; auto). cbn [fst snd].
    f_equal. unfold S1, S2. cbn [map lsum fold_right]. unfold lsum. rewrite !Rplus_assoc. auto.
Qed.
Lemma sum2_inv l : forall acc x, sum2 tm l acc = Ok x -> forall d, In d l -> exists y, tm d = Ok y.
Proof.
  induction l as [|d l IH]; intros acc x H e E; [destruct E|]. cbn [sum2] in H.
  apply bind_ok in H. destruct H as (y & H1 & H2). destruct E as [<-|E]; eauto.
Qed.
Lemma over_ranks_ok rs : (forall d, In d (all_points rs) -> tm d = Ok (g d)) ->
  over_ranks (fun t => sum2 tm (points t) (0, 0)) rs = Ok (S1 (all_points rs), S2 (all_points rs)).
Proof.
  induction rs as [|t rs IH]; intros H; cbn [over_ranks]; [reflexivity|].
  rewrite sum2_ok by (intros d Hd; apply H; cbn; apply in_app_iff; auto). cbn [bind].
  rewrite IH by (intros d Hd; apply H; cbn; apply in_app_iff; auto). cbn [bind fst snd].
  f_equal. unfold S1, S2, all_points. cbn [flat_map]. rewrite !map_app, !lsum_app, !Rplus_0_l. auto.
Qed.
Lemma over_ranks_inv rs x : over_ranks (fun t => sum2 tm (points t) (0, 0)) rs = Ok x ->
  forall d, In d (all_points rs) -> exists y, tm d = Ok y.
Proof.
  revert x. induction rs as [|t rs IH]; intros x H d D; [destruct D|]. cbn [over_ranks] in H.
  apply bind_ok in H. destruct H as (a & H1 & H). apply bind_ok in H. destruct H as (b & H2 & H).
  cbn in D. apply in_app_iff in D. destruct D as [D|D]; [eapply sum2_inv; eauto|eapply IH; eauto].
Qed.
End Sums.

(** ** The tail of functional *)
Definition finish (kd : kind) (k : coef) (s : R * R) : outcome totals :=
   match kd with
   | PNorm => m <- rdiv (fst s) (snd s) ;; i <- rdiv 1 (k_p k) ;; y <- cpow m i ;; Ok (mkTot (fst s) (snd s) (k_s0 k * y))
   | KS => m <- rdiv (fst s) (snd s) ;; i <- rdiv 1 (k_p k) ;; y <- clog m ;; Ok (mkTot (fst s) (snd s) (i * y))
   | Ramp => Ok (mkTot (fst s) (snd s) (fst s - snd s))
   end.
Lemma finish_tot kd k s o : finish kd k s = Ok o -> t_int o = fst s /\ t_J o = snd s.
Proof.
  destruct kd; cbn; intros H.
  - apply bind_ok in H. destruct H as (m & _ & H). apply bind_ok in H. destruct H as (i & _ & H). apply bind_ok in H. destruct H as (y & _ & H).
    injection H as <-. auto.
  - apply bind_ok in H. destruct H as (m & _ & H). apply bind_ok in H. destruct H as (i & _ & H). apply bind_ok in H. destruct H as (y & _ & H).
    injection H as <-. auto.
  - injection H as <-. auto.
Qed.
Definition T1 kd k rs := S1 (tv kd k) (all_points rs).
Definition T2 kd k rs := S2 (tv kd k) (all_points rs).
Lemma functional_run kd k rs : 0 < k_s0 k -> (forall d, In d (all_points rs) -> term kd k d = Ok (tv kd k d)) ->
  functional kd k rs = finish kd k (T1 kd k rs, T2 kd k rs).
Proof.
  intros P H. unfold functional. rewrite (proj2 (rltb_true _ _) P). cbn [assert_].
  rewrite (over_ranks_ok _ (tv kd k)) by auto. cbn [bind]. destruct kd; reflexivity.
Qed.
Lemma functional_inv kd k rs o : functional kd k rs = Ok o -> 0 < k_s0 k /\
  (forall d, In d (all_points rs) -> term kd k d = Ok (tv kd k d)) /\ finish kd k (T1 kd k rs, T2 kd k rs) = Ok o.
Proof.
  intros H. pose proof H as H0. unfold functional in H. apply assert_ok in H. destruct H as (P & H). apply rltb_true in P.
  apply bind_ok in H. destruct H as (s & H1 & H2).
  assert (A : forall d, In d (all_points rs) -> term kd k d = Ok (tv kd k d)).
  { intros d D. destruct (over_ranks_inv _ _ _ H1 d D) as (y & Y). rewrite (tv_ok _ _ _ _ Y). auto. }
  split; auto. split; auto. rewrite <- functional_run; auto.
Qed.
Definition fin (kd : kind) (k : coef) (s : R * R) : R := match finish kd k s with Ok o => t_norm o | Fault _ => 0 end.
Lemma value_run kd k rs : 0 < k_s0 k -> (forall d, In d (all_points rs) -> term kd k d = Ok (tv kd k d)) ->
  value kd k rs = fin kd k (T1 kd k rs, T2 kd k rs).
Proof. intros P H. unfold value, fin. rewrite functional_run by auto. auto. Qed.

(** Derivative of the tail and the linear form assemble computes. *)
Lemma finish_deriv kd k F G t0 F' G' o : 0 < k_s0 k -> k_p k <> 0 ->
  derivable_pt_lim F t0 F' -> derivable_pt_lim G t0 G' -> 0 < G t0 -> (kd <> Ramp -> 0 < F t0) ->
  t_int o = F t0 -> t_J o = G t0 ->
  exists c1 c2, (forall s, assemble kd k o s = Ok (c1 * fst s - c2 * snd s)) /\
   derivable_pt_lim (fun t => fin kd k (F t, G t)) t0 (c1 * F' - c2 * G') /\
   near t0 (fun t => exists o', finish kd k (F t, G t) = Ok o').
Proof.
  intros S0 P0 DF DG GP FP OI OJ. assert (GN : G t0 <> 0) by lra.
  assert (NG : near t0 (fun t => 0 < G t)) by (eapply near_pos; eauto).
  destruct kd.
  - specialize (FP ltac:(congruence)).
    assert (NF : near t0 (fun t => 0 < F t)) by (eapply near_pos; eauto).
    assert (NR : near t0 (fun t => finish PNorm k (F t, G t) = Ok (mkTot (F t) (G t) (k_s0 k * Rpower (F t / G t) (1 / k_p k))))).
    { eapply near_impl; [|apply near_and; [exact NF|exact NG]]. intros t (A & B). cbn beta in *. cbn.
      rewrite rdiv_ok by lra. cbn [bind]. rewrite rdiv_ok by auto. cbn [bind]. rewrite cpow_pos by (apply Rdiv_lt_0_compat; auto). auto. }
    assert (M : 0 < F t0 / G t0) by (apply Rdiv_lt_0_compat; auto).
    exists (k_s0 k / k_p k * Rpower (F t0 / G t0) (1 / k_p k - 1) / G t0),
           (k_s0 k / k_p k * Rpower (F t0 / G t0) (1 / k_p k - 1) * (F t0 / (G t0 * G t0))).
    split; [|split].
    + intros s. unfold assemble. rewrite OI, OJ, rdiv_ok by auto. cbn [bind]. rewrite rdiv_ok by auto. cbn [bind].
      rewrite cpow_pos by auto. cbn [bind]. rewrite rdiv_ok by auto. cbn [bind]. rewrite rdiv_ok by (apply Rmult_integral_contrapositive; auto).
      cbn [bind]. f_equal. field. split; auto.
    + eapply deriv_ext with (f := fun t => k_s0 k * Rpower (F t / G t) (1 / k_p k)).
      { eapply near_impl; [|exact NR]. intros t T. cbn beta in T. unfold fin. rewrite T. auto. }
      eapply deriv_eq; [|apply dSC; apply (deriv_comp (fun x => Rpower x (1 / k_p k)) (fun t => F t / G t));
        [apply dDI; eauto|apply derivable_pt_lim_power; auto]]. cbn beta. field. split; auto.
    + eapply near_impl; [|exact NR]. intros t T. cbn beta in T. rewrite T. eexists; reflexivity.
  - specialize (FP ltac:(congruence)).
    assert (NF : near t0 (fun t => 0 < F t)) by (eapply near_pos; eauto).
    assert (NR : near t0 (fun t => finish KS k (F t, G t) = Ok (mkTot (F t) (G t) (1 / k_p k * ln (F t / G t))))).
    { eapply near_impl; [|apply near_and; [exact NF|exact NG]]. intros t (A & B). cbn beta in *. cbn.
      rewrite rdiv_ok by lra. cbn [bind]. rewrite rdiv_ok by auto. cbn [bind]. unfold clog.
      rewrite (proj2 (rltb_true 0 (F t / G t))) by (apply Rdiv_lt_0_compat; auto). auto. }
    assert (M : 0 < F t0 / G t0) by (apply Rdiv_lt_0_compat; auto).
    exists (1 / k_p k / (F t0 / G t0) / G t0), (1 / k_p k / (F t0 / G t0) * (F t0 / (G t0 * G t0))).
    split; [|split].
    + intros s. unfold assemble. rewrite OI, OJ, rdiv_ok by auto. cbn [bind]. rewrite rdiv_ok by auto. cbn [bind].
      rewrite rdiv_ok by lra. cbn [bind]. rewrite rdiv_ok by auto. cbn [bind]. rewrite rdiv_ok by (apply Rmult_integral_contrapositive; auto).
      cbn [bind]. f_equal. unfold Rdiv. ring.
    + eapply deriv_ext with (f := fun t => 1 / k_p k * ln (F t / G t)).
      { eapply near_impl; [|exact NR]. intros t T. cbn beta in T. unfold fin. rewrite T. auto. }
      eapply deriv_eq; [|apply dSC; apply (deriv_comp ln (fun t => F t / G t)); [apply dDI; eauto|apply derivable_pt_lim_ln; auto]].
      field. repeat split; auto; lra.
    + eapply near_impl; [|exact NR]. intros t T. cbn beta in T. rewrite T. eexists; reflexivity.
  - exists 1, 1. split; [|split].
    + intros s. cbn. f_equal. ring.
    + eapply deriv_ext with (f := fun t => F t - G t); [apply near_all; intros; reflexivity|].
      eapply deriv_eq; [|apply dMI; eauto]. ring.
    + apply near_all. intros t. cbn. eauto.
Qed.

(** ** Sums over elements *)
Lemma sum_ranks_lin (tm : datum -> outcome (R * R)) g k as_ c1 c2 rs : 0 < k_s0 k ->
  (forall s, as_ s = Ok (c1 * fst s - c2 * snd s)) -> (forall d, In d (all_points rs) -> tm d = Ok (g d)) ->
  sum_ranks (sum_elems (fun l => assert_ (rltb 0 (k_s0 k)) (s <- sum2 tm l (0, 0) ;; as_ s))) rs =
  Ok (c1 * S1 g (all_points rs) - c2 * S2 g (all_points rs)).
Proof.
  intros S0 A. rewrite (proj2 (rltb_true _ _) S0). cbn [assert_].
  assert (E : forall t, (forall d, In d (points t) -> tm d = Ok (g d)) ->
     sum_elems (fun l => s <- sum2 tm l (0, 0) ;; as_ s) t = Ok (c1 * S1 g (points t) - c2 * S2 g (points t))).
  { induction t as [|[e l] t IH]; intros H; cbn [sum_elems].
    - unfold S1, S2. cbn. f_equal. ring.
    - rewrite (sum2_ok _ g) by (intros d D; apply H; cbn; apply in_app_iff; auto). cbn [bind]. rewrite A. cbn [bind].
      rewrite IH by (intros d D; apply H; cbn; apply in_app_iff; auto). cbn [bind fst snd]. f_equal.
      unfold points. cbn [flat_map snd]. unfold S1, S2. rewrite !map_app, !lsum_app. ring. }
  induction rs as [|t rs IH]; intros H; cbn [sum_ranks].
  - unfold S1, S2. cbn. f_equal. ring.
  - rewrite E by (intros d D; apply H; cbn; apply in_app_iff; auto). cbn [bind].
    rewrite IH by (intros d D; apply H; cbn; apply in_app_iff; auto). cbn [bind]. f_equal.
    unfold all_points. cbn [flat_map]. unfold S1, S2. rewrite !map_app, !lsum_app. ring.
Qed.
Lemma lsum_deriv {A} (F : A -> R -> R) (F' : A -> R) t0 l : (forall a, In a l -> derivable_pt_lim (F a) t0 (F' a)) ->
  derivable_pt_lim (fun t => lsum (map (fun a => F a t) l)) t0 (lsum (map F' l)).
Proof.
  induction l as [|a l IH]; intros H; cbn; [apply dCO|]. apply dPL; [apply H; left; auto|apply IH; intros; apply H; right; auto].
Qed.

Lemma points_at f M t : all_points (data_at f M t) = map (at_ f t) (mpoints M).
Proof.
  unfold all_points, data_at, mpoints, points. induction M as [|r M IH]; auto. cbn [map flat_map]. rewrite IH, map_app. f_equal.
  clear. induction r as [|e r IH]; auto. cbn [map flat_map fst snd]. rewrite map_app, IH. auto.
Qed.

(** Positivity of the terms. *)
Lemma cpow_nonneg x y v : 0 <= x -> cpow x y = Ok v -> 0 <= v.
Proof.
  intros X H. unfold cpow in H. rbh H; try discriminate; try (injection H as <-); try lra. left; apply exp_pos.
Qed.
Lemma term_pos kd k d x : term kd k d = Ok x -> 0 < k_s0 k -> 0 < d_J d ->
  0 < snd x /\ 0 <= fst x /\ (0 < mises (d_s d) \/ kd <> PNorm -> 0 < fst x).
Proof.
  intros H S0 J. unfold term in H. rewrite von_mises_ok in H. cbn [bind] in H. set (e := mises (d_s d)) in *.
  assert (X : 0 <= e / k_s0 k). { apply Rmult_le_pos; [apply mises_pos|left; apply Rinv_0_lt_compat; auto]. }
  destruct kd.
  - apply bind_ok in H. destruct H as (w & W & H). apply bind_ok in H. destruct H as (y & Y & H). injection H as <-. cbn [fst snd].
    assert (WP : 0 < w). { unfold weight in W. apply bind_ok in W. destruct W as (sp & _ & W). injection W as <-. rb; apply exp_pos. }
    pose proof (cpow_nonneg _ _ _ X Y) as YP. split; [apply Rmult_lt_0_compat; auto|]. split.
    + apply Rmult_le_pos; [apply Rmult_le_pos; lra|lra].
    + intros [E|E]; [|congruence]. rewrite cpow_pos in Y by (apply Rdiv_lt_0_compat; auto). injection Y as <-.
      apply Rmult_lt_0_compat; [apply Rmult_lt_0_compat; auto; apply exp_pos|auto].
  - injection H as <-. cbn [fst snd]. assert (0 < exp (k_p k * (e - k_s0 k) / k_s0 k) * d_J d) by (apply Rmult_lt_0_compat; auto; apply exp_pos).
    split; auto. split; [lra|auto].
  - apply bind_ok in H. destruct H as (y & Y & H). apply bind_ok in H. destruct H as (i & I & H). apply bind_ok in H. destruct H as (z & Z & H).
    injection H as <-. cbn [fst snd]. pose proof (cpow_nonneg _ _ _ X Y) as YP. rewrite cpow_pos in Z by lra. injection Z as <-.
    assert (0 < Rpower (1 + y) i * d_J d) by (apply Rmult_lt_0_compat; auto; apply exp_pos). split; auto. split; [lra|auto].
Qed.
Lemma lsum_pos {A} (g : A -> R) l a : (forall x, In x l -> 0 <= g x) -> In a l -> 0 < g a -> 0 < lsum (map g l).
Proof.
  induction l as [|b l IH]; intros H I P; [destruct I|]. cbn. pose proof (lsum_map_nonneg g l (fun x Hx => H x (or_intror Hx))) as N.
  destruct I as [->|I].
  - unfold lsum in *. lra.
  - pose proof (H b (or_introl eq_refl)). specialize (IH (fun x Hx => H x (or_intror Hx)) I P). unfold lsum in *. lra.
Qed.
Lemma totals_pos kd k rs : 0 < k_s0 k -> (forall d, In d (all_points rs) -> 0 < d_J d) -> all_points rs <> [] ->
  (forall d, In d (all_points rs) -> term kd k d = Ok (tv kd k d)) ->
  0 < T2 kd k rs /\ 0 <= T1 kd k rs /\ ((kd = PNorm -> exists d, In d (all_points rs) /\ 0 < mises (d_s d)) -> 0 < T1 kd k rs).
Proof.
  intros S0 J NE H.
  assert (PP : forall d, In d (all_points rs) -> 0 < snd (tv kd k d) /\ 0 <= fst (tv kd k d) /\ (0 < mises (d_s d) \/ kd <> PNorm -> 0 < fst (tv kd k d))).
  { intros d D. eapply term_pos; eauto. }
  destruct (all_points rs) as [|d0 l] eqn:E; [congruence|]. unfold T1, T2, S1, S2. rewrite E.
  split; [apply lsum_pos with (a := d0); [intros x X; apply PP in X; lra|left; auto|apply PP; left; auto]|].
  split; [apply lsum_map_nonneg; intros x X; apply PP in X; lra|]. intros K.
  assert (exists d, In d (d0 :: l) /\ (0 < mises (d_s d) \/ kd <> PNorm)) as (d & D & DP).
  { destruct kd; [destruct (K eq_refl) as (d & A & B); eauto| |]; exists d0; split; try (left; auto; fail); right; congruence. }
  apply lsum_pos with (a := d); auto; [intros x X; apply PP in X; lra|apply PP; auto].
Qed.

(** ** The derivative of the output along moving data *)
Lemma output_deriv kd k f M t0 : 0 < k_s0 k -> k_p k <> 0 -> mpoints M <> [] ->
  (forall m, In m (mpoints M) -> 0 < m_J m /\ moves_well m t0 /\ regular kd k (mises (m_s m t0))) ->
  (kd = PNorm -> exists m, In m (mpoints M) /\ 0 < mises (m_s m t0)) ->
  exists o c1 c2 (h : datum -> R * R), functional kd k (data_at f M t0) = Ok o /\
    (forall s, assemble kd k o s = Ok (c1 * fst s - c2 * snd s)) /\
    (forall d, In d (all_points (data_at f M t0)) -> (de <- dmises_dp d f ;; sens_term kd k d de) = Ok (h d)) /\
    derivable_pt_lim (fun t => value kd k (data_at f M t)) t0 (c1 * S1 h (all_points (data_at f M t0)) - c2 * S2 h (all_points (data_at f M t0))) /\
    near t0 (fun t => exists o', functional kd k (data_at f M t) = Ok o').
Proof.
  intros S0 P0 NE HM HP.
  assert (PD : forall m, In m (mpoints M) -> exists num den, (de <- dmises_dp (at_ f t0 m) f ;; sens_term kd k (at_ f t0 m) de) = Ok (num, den) /\
   near t0 (fun t => term kd k (at_ f t m) = Ok (tv kd k (at_ f t m))) /\
   derivable_pt_lim (fun t => fst (tv kd k (at_ f t m))) t0 num /\
   derivable_pt_lim (fun t => snd (tv kd k (at_ f t m))) t0 den).
  { intros m Hm. destruct (HM m Hm) as (J & MW & RG). destruct (point_deriv k f t0 S0 P0 kd m MW RG) as (num & den & A & B & C & D & E).
    exists num, den. repeat split; auto. destruct kd; auto; rewrite E by congruence; auto. }
  set (h := fun d => match (de <- dmises_dp d f ;; sens_term kd k d de) with Ok x => x | Fault _ => (0, 0) end).
  assert (NT : near t0 (fun t => forall m, In m (mpoints M) -> term kd k (at_ f t m) = Ok (tv kd k (at_ f t m)))).
  { apply near_list. intros m Hm. destruct (PD m Hm) as (a & b & _ & B & _). auto. }
  assert (NA : near t0 (fun t => forall d, In d (all_points (data_at f M t)) -> term kd k d = Ok (tv kd k d))).
  { eapply near_impl; [|exact NT]. intros t T d D. rewrite points_at in D. apply in_map_iff in D. destruct D as (m & <- & D). auto. }
  set (F := fun t => T1 kd k (data_at f M t)). set (G := fun t => T2 kd k (data_at f M t)).
  assert (HD : forall m, In m (mpoints M) -> h (at_ f t0 m) = (fst (h (at_ f t0 m)), snd (h (at_ f t0 m)))) by (intros; apply surjective_pairing).
  assert (DF : derivable_pt_lim F t0 (S1 h (all_points (data_at f M t0)))).
  { rewrite points_at. unfold F, T1, S1. eapply deriv_ext with (f := fun t => lsum (map (fun m => fst (tv kd k (at_ f t m))) (mpoints M))).
    - apply near_all. intros t. rewrite points_at, map_map. auto.
    - rewrite map_map. apply (lsum_deriv (fun m t => fst (tv kd k (at_ f t m)))). intros m Hm.
      destruct (PD m Hm) as (a & b & A & _ & C & _). unfold h. rewrite A. auto. }
  assert (DG : derivable_pt_lim G t0 (S2 h (all_points (data_at f M t0)))).
  { rewrite points_at. unfold G, T2, S2. eapply deriv_ext with (f := fun t => lsum (map (fun m => snd (tv kd k (at_ f t m))) (mpoints M))).
    - apply near_all. intros t. rewrite points_at, map_map. auto.
    - rewrite map_map. apply (lsum_deriv (fun m t => snd (tv kd k (at_ f t m)))). intros m Hm.
      destruct (PD m Hm) as (a & b & A & _ & _ & D). unfold h. rewrite A. auto. }
  destruct (totals_pos kd k (data_at f M t0)) as (GP & F0 & FP); auto.
  { intros d D. rewrite points_at in D. apply in_map_iff in D. destruct D as (m & <- & D). apply HM; auto. }
  { rewrite points_at. intros E. apply map_eq_nil in E. auto. }
  { apply (near_here _ _ NA). }
  assert (FT : 0 < F t0).
  { apply FP. intros E. destruct (HP E) as (m & A & B). exists (at_ f t0 m). split; auto. rewrite points_at. apply in_map; auto. }
  destruct (finish_deriv kd k F G t0 _ _ (mkTot (F t0) (G t0) 0) S0 P0 DF DG GP) as (c1 & c2 & A1 & A2 & A3); auto.
  destruct (near_here _ _ A3) as (o & O). destruct (finish_tot _ _ _ _ O) as (O1 & O2). cbn in O1, O2.
  exists o, c1, c2, h. split; [rewrite functional_run; auto; apply (near_here _ _ NA)|]. split.
  { intros s. rewrite <- A1. unfold assemble. cbn [t_int t_J]. rewrite O1, O2. auto. }
  split; [|split].
  - intros d D. rewrite points_at in D. apply in_map_iff in D. destruct D as (m & <- & D). destruct (PD m D) as (a & b & A & _). unfold h. rewrite A. auto.
  - eapply deriv_ext; [|exact A2]. eapply near_impl; [|exact NA]. intros t T. cbn beta in T. symmetry. apply value_run; auto.
  - eapply near_impl; [|apply near_and; [exact NA|exact A3]]. intros t (T1' & T2'). cbn beta in *. rewrite functional_run; auto.
Qed.
