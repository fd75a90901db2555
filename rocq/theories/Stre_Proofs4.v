(** Bounds, permutations, histories. *)
From Coq Require Import List Arith NArith ZArith Lia Reals Lra Bool Permutation.
From Verif Require Import Base BaseLemmas RBool Stre_Model Stre_Spec Stre_Proofs Stre_Proofs2 Stre_Proofs3.
Import ListNotations.
Open Scope R_scope.

(** ** Power means *)
Lemma cpv_mono x y p : 0 <= x <= y -> 0 < p -> cpv x p <= cpv y p.
Proof.
  intros H P. destruct (Req_dec x 0) as [->|N].
  - rewrite (cpv_ok 0 p 0) by (apply cpow_0; auto). destruct (Req_dec y 0) as [->|M].
    + rewrite (cpv_ok 0 p 0) by (apply cpow_0; auto). lra.
    + rewrite (cpv_ok y p _ (cpow_pos y p ltac:(lra))). left; apply exp_pos.
  - rewrite (cpv_ok x p _ (cpow_pos x p ltac:(lra))), (cpv_ok y p _ (cpow_pos y p ltac:(lra))). apply Rle_Rpower_l; lra.
Qed.
Lemma cpv_inv x p : 0 <= x -> 0 < p -> cpv (cpv x p) (1 / p) = x.
Proof.
  intros H P. assert (I : 0 < 1 / p) by (apply Rdiv_lt_0_compat; lra). destruct (Req_dec x 0) as [->|N].
  - rewrite (cpv_ok 0 p 0) by (apply cpow_0; auto). apply cpv_ok. apply cpow_0; auto.
  - rewrite (cpv_ok x p _ (cpow_pos x p ltac:(lra))). rewrite (cpv_ok (Rpower x p) (1 / p) _ (cpow_pos (Rpower x p) (1 / p) (exp_pos _))).
    rewrite Rpower_mult. replace (p * (1 / p)) with 1 by (field; lra). apply Rpower_1. lra.
Qed.
Lemma rpower_anti x y p : 0 < x <= y -> p < 0 -> Rpower y p <= Rpower x p.
Proof.
  intros H P. unfold Rpower. assert (L : ln x <= ln y).
  { destruct (Req_dec x y) as [->|N]; [lra|]. left. apply ln_increasing; lra. }
  assert (K : p * ln y <= p * ln x) by nra. destruct K as [K|K]; [left; apply exp_increasing; auto|rewrite K; lra].
Qed.
(** A weighted mean lies between bounds of the values. *)
Lemma mean_between {A} (y w : A -> R) l a b : l <> [] -> (forall d, In d l -> 0 < w d) -> (forall d, In d l -> a <= y d <= b) ->
  a <= lsum (map (fun d => y d * w d) l) / lsum (map w l) <= b.
Proof.
  intros NE W H.
  assert (P : 0 < lsum (map w l)).
  { destruct l as [|d l]; [congruence|]. apply lsum_pos with (a := d); [intros x X; left; auto|left; auto|apply W; left; auto]. }
  assert (L : a * lsum (map w l) <= lsum (map (fun d => y d * w d) l)).
  { rewrite <- lsum_map_scal. apply lsum_map_le. intros d D. specialize (W d D). specialize (H d D). apply Rmult_le_compat_r; lra. }
  assert (U : lsum (map (fun d => y d * w d) l) <= b * lsum (map w l)).
  { rewrite <- lsum_map_scal. apply lsum_map_le. intros d D. specialize (W d D). specialize (H d D). apply Rmult_le_compat_r; lra. }
  split.
  - apply (Rmult_le_reg_r (lsum (map w l))); auto. unfold Rdiv. rewrite Rmult_assoc, Rinv_l by lra. lra.
  - apply (Rmult_le_reg_r (lsum (map w l))); auto. unfold Rdiv. rewrite Rmult_assoc, Rinv_l by lra. lra.
Qed.

(** The terms of a p-norm. *)
Lemma pnorm_term k d x : term PNorm k d = Ok x -> exists w, weight k (mises (d_s d)) = Ok w /\ 0 < w /\
  cpow (mises (d_s d) / k_s0 k) (k_p k) = Ok (cpv (mises (d_s d) / k_s0 k) (k_p k)) /\
  x = (cpv (mises (d_s d) / k_s0 k) (k_p k) * (w * d_J d), w * d_J d).
Proof.
  intros H. unfold term in H. rewrite von_mises_ok in H. cbn [bind] in H.
  apply bind_ok in H. destruct H as (w & W & H). apply bind_ok in H. destruct H as (y & Y & H). injection H as <-.
  exists w. split; auto. split.
  - unfold weight in W. apply bind_ok in W. destruct W as (sp & _ & W). injection W as <-. rb; apply exp_pos.
  - rewrite (cpv_ok _ _ _ Y). split; auto. f_equal. ring.
Qed.
Lemma pnorm_between k rs o lo hi : functional PNorm k rs = Ok o ->
  (forall d, In d (all_points rs) -> 0 < d_J d /\ lo <= mises (d_s d) <= hi) -> lo <= t_norm o <= hi.
Proof.
  intros H B. destruct (functional_inv _ _ _ _ H) as (S0 & TK & FN).
  assert (NE : all_points rs <> []).
  { intros E. unfold finish, T1, T2, S1, S2 in FN. rewrite E in FN. cbn in FN. unfold rdiv in FN. rewrite (proj2 (reqb_true 0 0) eq_refl) in FN. discriminate. }
  set (l := all_points rs) in *.
  set (y := fun d => cpv (mises (d_s d) / k_s0 k) (k_p k)).
  set (w := fun d => match weight k (mises (d_s d)) with Ok w => w * d_J d | Fault _ => 0 end).
  assert (TV : forall d, In d l -> 0 < w d /\ tv PNorm k d = (y d * w d, w d) /\ cpow (mises (d_s d) / k_s0 k) (k_p k) = Ok (y d)).
  { intros d D. destruct (pnorm_term _ _ _ (TK d D)) as (v & V & VP & C & E). unfold w. rewrite V. destruct (B d D) as (J & _).
    split; [apply Rmult_lt_0_compat; auto|]. split; auto. }
  assert (E1 : T1 PNorm k rs = lsum (map (fun d => y d * w d) l)).
  { unfold T1, S1. f_equal. apply map_ext_in. intros d D. destruct (TV d D) as (_ & E & _). rewrite E. auto. }
  assert (E2 : T2 PNorm k rs = lsum (map w l)).
  { unfold T2, S2. f_equal. apply map_ext_in. intros d D. destruct (TV d D) as (_ & E & _). rewrite E. auto. }
  unfold finish in FN. cbn [fst snd] in FN. rewrite E1, E2 in FN.
  apply bind_ok in FN. destruct FN as (m & M & FN). apply bind_ok in FN. destruct FN as (i & I & FN). apply bind_ok in FN. destruct FN as (v & V & FN).
  injection FN as <-. cbn [t_norm]. apply rdiv_inv in M. destruct M as (_ & ->). apply rdiv_inv in I. destruct I as (P0 & ->).
  assert (SI : 0 < / k_s0 k) by (apply Rinv_0_lt_compat; auto).
  assert (X0 : forall d, 0 <= mises (d_s d) / k_s0 k) by (intros d; apply Rmult_le_pos; [apply mises_pos|lra]).
  assert (HI : 0 <= hi). { destruct l as [|d l']; [congruence|]. destruct (B d (or_introl eq_refl)) as (_ & B1). pose proof (mises_pos (d_s d)). lra. }
  assert (WP : forall d, In d l -> 0 < w d) by (intros d D; apply TV; auto).
  assert (DIV : forall a b, a <= b -> a / k_s0 k <= b / k_s0 k) by (intros; apply Rmult_le_compat_r; lra).
  destruct (Rlt_dec 0 (k_p k)) as [PP|PN].
  - assert (V0 : 0 <= v).
    { eapply cpow_nonneg; [|exact V]. apply (mean_between y w l 0 (cpv (hi / k_s0 k) (k_p k))); auto. intros d D. destruct (TV d D) as (_ & _ & C).
      split; [eapply cpow_nonneg; [|exact C]; auto|]. apply cpv_mono; auto. destruct (B d D) as (_ & _ & B2). split; auto. }
    split.
    + destruct (Rle_dec 0 lo) as [L|L]; [|apply Rle_trans with 0; [lra|apply Rmult_le_pos; lra]].
      apply (Rmult_le_reg_r (/ k_s0 k)); auto. replace (k_s0 k * v * / k_s0 k) with v by (field; lra). change (lo * / k_s0 k) with (lo / k_s0 k).
      rewrite <- (cpv_inv (lo / k_s0 k) (k_p k)); [|apply Rmult_le_pos; lra|auto]. rewrite <- (cpv_ok _ _ _ V).
      apply cpv_mono; [|apply Rdiv_lt_0_compat; lra]. split.
      * assert (0 <= lo / k_s0 k) by (apply Rmult_le_pos; lra). destruct (Req_dec (lo / k_s0 k) 0) as [->|N].
        -- rewrite (cpv_ok 0 _ 0) by (apply cpow_0; auto). lra.
        -- rewrite (cpv_ok (lo / k_s0 k) (k_p k) _ (cpow_pos (lo / k_s0 k) (k_p k) ltac:(lra))). left; apply exp_pos.
      * apply (mean_between y w l _ (cpv (hi / k_s0 k) (k_p k))); auto. intros d D. destruct (B d D) as (_ & B1 & B2).
        split; apply cpv_mono; auto; split; auto. apply Rmult_le_pos; lra.
    + apply (Rmult_le_reg_r (/ k_s0 k)); auto. replace (k_s0 k * v * / k_s0 k) with v by (field; lra). change (hi * / k_s0 k) with (hi / k_s0 k).
      rewrite <- (cpv_inv (hi / k_s0 k) (k_p k)); [|apply Rmult_le_pos; lra|auto]. rewrite <- (cpv_ok _ _ _ V).
      apply cpv_mono; [|apply Rdiv_lt_0_compat; lra].
      apply (mean_between y w l 0 (cpv (hi / k_s0 k) (k_p k))); auto. intros d D. destruct (TV d D) as (_ & _ & C). destruct (B d D) as (_ & B1 & B2).
      split; [eapply cpow_nonneg; [|exact C]; auto|]. apply cpv_mono; auto.
  - assert (PN' : k_p k < 0) by lra.
    assert (EP : forall d, In d l -> 0 < mises (d_s d) / k_s0 k).
    { intros d D. destruct (X0 d) as [X|X]; auto. exfalso. destruct (TV d D) as (_ & _ & C). rewrite <- X in C.
      unfold cpow in C. rbh C; try discriminate; lra. }
    assert (YE : forall d, In d l -> y d = Rpower (mises (d_s d) / k_s0 k) (k_p k)) by (intros d D; apply cpv_ok, cpow_pos; auto).
    assert (IN : 1 / k_p k < 0). { unfold Rdiv. rewrite Rmult_1_l. apply Rinv_lt_0_compat; auto. }
    assert (INV : forall x, 0 < x -> Rpower (Rpower x (k_p k)) (1 / k_p k) = x).
    { intros x X. rewrite Rpower_mult. replace (k_p k * (1 / k_p k)) with 1 by (field; auto). apply Rpower_1; auto. }
    assert (HP : 0 < hi / k_s0 k).
    { destruct l as [|d l']; [congruence|]. pose proof (EP d (or_introl eq_refl)). destruct (B d (or_introl eq_refl)) as (_ & _ & B2).
      eapply Rlt_le_trans; [eauto|]. apply DIV; auto. }
    set (m := lsum (map (fun d => y d * w d) l) / lsum (map w l)) in *.
    assert (ML : Rpower (hi / k_s0 k) (k_p k) <= m).
    { destruct (mean_between y w l (Rpower (hi / k_s0 k) (k_p k)) (Rmax (m + 1) (lsum (map (fun d => Rabs (y d)) l)))) as (K & _); auto.
      intros d D. rewrite (YE d D). split.
      - apply rpower_anti; auto. split; auto. apply DIV. destruct (B d D); tauto.
      - eapply Rle_trans; [|apply Rmax_r]. rewrite <- (YE d D). clear - D. induction l as [|a l IH]; [destruct D|]. cbn.
        pose proof (lsum_map_nonneg (fun d => Rabs (y d)) l (fun x _ => Rabs_pos _)). pose proof (Rle_abs (y d)). pose proof (Rabs_pos (y a)). unfold lsum in *.
        destruct D as [->|D]; [lra|]. specialize (IH D). unfold lsum in *. lra. }
    assert (MP : 0 < m) by (eapply Rlt_le_trans; [apply exp_pos|exact ML]).
    rewrite cpow_pos in V by auto. injection V as <-. split.
    + destruct (Rlt_dec 0 lo) as [L|L]; [|apply Rle_trans with 0; [lra|apply Rmult_le_pos; [lra|left; apply exp_pos]]].
      apply (Rmult_le_reg_r (/ k_s0 k)); auto. replace (k_s0 k * Rpower m (1 / k_p k) * / k_s0 k) with (Rpower m (1 / k_p k)) by (field; lra).
      change (lo * / k_s0 k) with (lo / k_s0 k). assert (LP : 0 < lo / k_s0 k) by (apply Rdiv_lt_0_compat; auto).
      rewrite <- (INV (lo / k_s0 k)) by auto. apply rpower_anti; auto. split; auto.
      apply (mean_between y w l 0); auto. intros d D. rewrite (YE d D). split; [left; apply exp_pos|]. apply rpower_anti; auto.
      split; auto. apply DIV. destruct (B d D); tauto.
    + apply (Rmult_le_reg_r (/ k_s0 k)); auto. replace (k_s0 k * Rpower m (1 / k_p k) * / k_s0 k) with (Rpower m (1 / k_p k)) by (field; lra).
      change (hi * / k_s0 k) with (hi / k_s0 k). rewrite <- (INV (hi / k_s0 k)) by auto. apply rpower_anti; auto. split; auto. apply exp_pos.
Qed.

(** ** KS *)
Lemma ks_tv k d : tv KS k d = (exp (k_p k * (mises (d_s d) - k_s0 k) / k_s0 k) * d_J d, d_J d).
Proof. apply tv_ok. unfold term. rewrite von_mises_ok. auto. Qed.
Lemma ks_total k rs : 0 < k_s0 k -> k_p k <> 0 -> all_points rs <> [] -> (forall d, In d (all_points rs) -> 0 < d_J d) ->
  0 < T1 KS k rs /\ 0 < T2 KS k rs /\ functional KS k rs = Ok (mkTot (T1 KS k rs) (T2 KS k rs) (1 / k_p k * ln (T1 KS k rs / T2 KS k rs))).
Proof.
  intros S0 P0 NE J.
  assert (TK : forall d, In d (all_points rs) -> term KS k d = Ok (tv KS k d)).
  { intros d D. rewrite ks_tv. unfold term. rewrite von_mises_ok. auto. }
  destruct (totals_pos KS k rs S0 J NE TK) as (A & _ & B). specialize (B ltac:(congruence)). split; auto. split; auto.
  rewrite functional_run by auto. unfold finish. cbn [fst snd]. rewrite rdiv_ok by lra. cbn [bind]. rewrite rdiv_ok by auto. cbn [bind].
  unfold clog. rewrite (proj2 (rltb_true 0 (T1 KS k rs / T2 KS k rs))) by (apply Rdiv_lt_0_compat; auto). auto.
Qed.
Lemma ks_bounds k rs M : 0 < k_s0 k -> 0 < k_p k -> all_points rs <> [] -> (forall d, In d (all_points rs) -> 0 < d_J d) ->
  (forall d, In d (all_points rs) -> (mises (d_s d) - k_s0 k) / k_s0 k <= M) ->
  1 / k_p k * ln (T1 KS k rs / T2 KS k rs) <= M /\
  forall d, In d (all_points rs) -> (mises (d_s d) - k_s0 k) / k_s0 k + 1 / k_p k * ln (d_J d / lsum (map d_J (all_points rs))) <= 1 / k_p k * ln (T1 KS k rs / T2 KS k rs).
Proof.
  intros S0 P0 NE J HM. destruct (ks_total k rs S0 ltac:(lra) NE J) as (A & B & _).
  assert (E2 : T2 KS k rs = lsum (map d_J (all_points rs))).
  { unfold T2, S2. f_equal. apply map_ext. intros d. rewrite ks_tv. auto. }
  assert (E1 : T1 KS k rs = lsum (map (fun d => exp (k_p k * ((mises (d_s d) - k_s0 k) / k_s0 k)) * d_J d) (all_points rs))).
  { unfold T1, S1. f_equal. apply map_ext. intros d. rewrite ks_tv. cbn. do 2 f_equal. unfold Rdiv. ring. }
  assert (PI : 0 < 1 / k_p k) by (apply Rdiv_lt_0_compat; lra).
  assert (LNM : forall x y, 0 < x <= y -> ln x <= ln y).
  { intros x y (X & [Y|Y]); [left; apply ln_increasing; auto|rewrite Y; lra]. }
  split.
  - assert (K : T1 KS k rs / T2 KS k rs <= exp (k_p k * M)).
    { rewrite E1, E2. apply (mean_between (fun d => exp (k_p k * ((mises (d_s d) - k_s0 k) / k_s0 k))) d_J (all_points rs) 0); auto.
      intros d D. split; [left; apply exp_pos|]. specialize (HM d D). assert (Q : k_p k * ((mises (d_s d) - k_s0 k) / k_s0 k) <= k_p k * M) by (apply Rmult_le_compat_l; lra).
      destruct Q as [Q|Q]; [left; apply exp_increasing; auto|rewrite Q; lra]. }
    assert (L : ln (T1 KS k rs / T2 KS k rs) <= k_p k * M).
    { rewrite <- (ln_exp (k_p k * M)). apply LNM. split; auto. apply Rdiv_lt_0_compat; auto. }
    apply Rle_trans with (1 / k_p k * (k_p k * M)); [apply Rmult_le_compat_l; lra|]. right. field. lra.
  - intros d D. rewrite <- E2. set (x := (mises (d_s d) - k_s0 k) / k_s0 k).
    assert (Q : exp (k_p k * x) * d_J d <= T1 KS k rs).
    { rewrite E1. clear - D J. fold x. revert J D. generalize (all_points rs). intros l J. unfold x. induction l as [|a l IH]; intros D; [destruct D|]. cbn.
      assert (N : 0 <= lsum (map (fun d => exp (k_p k * ((mises (d_s d) - k_s0 k) / k_s0 k)) * d_J d) l)).
      { apply lsum_map_nonneg. intros y Y. apply Rmult_le_pos; [left; apply exp_pos|left; apply J; right; auto]. }
      pose proof (Rmult_lt_0_compat _ _ (exp_pos (k_p k * ((mises (d_s a) - k_s0 k) / k_s0 k))) (J a (or_introl eq_refl))) as PA.
      destruct D as [->|D]; [unfold lsum in *; lra|]. specialize (IH (fun y Y => J y (or_intror Y)) D). unfold lsum in *. lra. }
    assert (DJ : 0 < d_J d) by auto.
    assert (L : ln (exp (k_p k * x) * (d_J d / T2 KS k rs)) <= ln (T1 KS k rs / T2 KS k rs)).
    { apply LNM. split; [apply Rmult_lt_0_compat; [apply exp_pos|apply Rdiv_lt_0_compat; auto]|].
      unfold Rdiv. rewrite <- Rmult_assoc. apply Rmult_le_compat_r; [left; apply Rinv_0_lt_compat; auto|auto]. }
    rewrite ln_mult in L by (try apply exp_pos; apply Rdiv_lt_0_compat; auto). rewrite ln_exp in L.
    apply Rle_trans with (1 / k_p k * (k_p k * x + ln (d_J d / T2 KS k rs))); [right; field; lra|]. apply Rmult_le_compat_l; lra.
Qed.

(** ** Ramp *)
Lemma ramp_bounds p x : 0 < p -> 0 <= x -> Rmax 1 x <= Rpower (1 + cpv x p) (1 / p) <= Rpower 2 (1 / p) * Rmax 1 x.
Proof.
  intros P X. assert (I : 0 < 1 / p) by (apply Rdiv_lt_0_compat; lra).
  assert (C : 0 <= cpv x p).
  { destruct (Req_dec x 0) as [->|N]; [rewrite (cpv_ok 0 p 0) by (apply cpow_0; auto); lra|].
    rewrite (cpv_ok x p _ (cpow_pos x p ltac:(lra))). left; apply exp_pos. }
  assert (INV : forall y, 0 < y -> Rpower (Rpower y p) (1 / p) = y).
  { intros y Y. rewrite Rpower_mult. replace (p * (1 / p)) with 1 by (field; lra). apply Rpower_1; auto. }
  assert (O1 : Rpower 1 (1 / p) = 1) by (unfold Rpower; rewrite ln_1, Rmult_0_r; apply exp_0).
  split.
  - apply Rmax_lub.
    + rewrite <- O1 at 1. apply Rle_Rpower_l; lra.
    + destruct (Req_dec x 0) as [->|N]; [left; apply exp_pos|]. rewrite <- (INV x) at 1 by lra.
      apply Rle_Rpower_l; [lra|]. rewrite (cpv_ok x p _ (cpow_pos x p ltac:(lra))). split; [apply exp_pos|lra].
  - assert (M : 1 + cpv x p <= 2 * Rpower (Rmax 1 x) p).
    { assert (A1 : 1 <= Rpower (Rmax 1 x) p).
      { replace 1 with (Rpower 1 p) at 1 by (unfold Rpower; rewrite ln_1, Rmult_0_r; apply exp_0). apply Rle_Rpower_l; [lra|]. split; [lra|apply Rmax_l]. }
      assert (A2 : cpv x p <= Rpower (Rmax 1 x) p).
      { destruct (Req_dec x 0) as [->|N]; [rewrite (cpv_ok 0 p 0) by (apply cpow_0; auto); lra|].
        rewrite (cpv_ok x p _ (cpow_pos x p ltac:(lra))). apply Rle_Rpower_l; [lra|]. split; [lra|apply Rmax_r]. }
      lra. }
    assert (M1 : 0 < Rmax 1 x) by (eapply Rlt_le_trans; [|apply Rmax_l]; lra).
    apply Rle_trans with (Rpower (2 * Rpower (Rmax 1 x) p) (1 / p)); [apply Rle_Rpower_l; lra|].
    rewrite <- Rpower_mult_distr by (try apply exp_pos; lra). rewrite (INV (Rmax 1 x)) by auto. lra.
Qed.
Lemma ramp_tv k d : 0 < k_s0 k -> 0 < k_p k ->
  term Ramp k d = Ok (Rpower (1 + cpv (mises (d_s d) / k_s0 k) (k_p k)) (1 / k_p k) * d_J d, d_J d).
Proof.
  intros S0 P. unfold term. rewrite von_mises_ok. cbn [bind].
  assert (X : 0 <= mises (d_s d) / k_s0 k). { apply Rmult_le_pos; [apply mises_pos|left; apply Rinv_0_lt_compat; auto]. }
  assert (C : pow_ok (mises (d_s d) / k_s0 k) (k_p k)).
  { destruct X as [X|X]; [eapply pow_ok_i; apply cpow_pos; auto|rewrite <- X; eapply pow_ok_i; apply cpow_0; auto]. }
  rewrite C. cbn [bind]. rewrite rdiv_ok by lra. cbn [bind]. rewrite cpow_pos; auto.
  pose proof (cpow_nonneg _ _ _ X C). lra.
Qed.

(** ** Order and distribution of the data *)
Lemma cpow_fault x y e : cpow x y = Fault e -> e = DivByZero.
Proof. unfold cpow. intros H. rbh H; congruence. Qed.
Lemma term_fault kd k d e : term kd k d = Fault e -> e = DivByZero.
Proof.
  unfold term. rewrite von_mises_ok. cbn [bind]. destruct kd; intros H.
  - unfold weight in H. destruct (cpow ((mises (d_s d) - k_s0 k) / k_s0 k) (k_w k)) as [|e1] eqn:E1; [|cbn in H; injection H as <-; eapply cpow_fault; eauto].
    cbn [bind] in H. destruct (cpow (mises (d_s d) / k_s0 k) (k_p k)) as [|e2] eqn:E2; [discriminate|cbn in H; injection H as <-; eapply cpow_fault; eauto].
  - discriminate.
  - destruct (cpow (mises (d_s d) / k_s0 k) (k_p k)) as [y|e1] eqn:E1; [|cbn in H; injection H as <-; eapply cpow_fault; eauto].
    cbn [bind] in H. unfold rdiv in H. rbh H; [cbn in H; congruence|]. cbn [bind] in H.
    destruct (cpow (1 + y) (1 / k_p k)) as [|e2] eqn:E2; [discriminate|cbn in H; injection H as <-; eapply cpow_fault; eauto].
Qed.
Lemma sum2_fault kd k l : forall acc e, sum2 (term kd k) l acc = Fault e -> e = DivByZero.
Proof.
  induction l as [|d l IH]; intros acc e H; cbn in H; [discriminate|]. destruct (term kd k d) as [x|e1] eqn:E; cbn in H; [eauto|].
  injection H as <-. eapply term_fault; eauto.
Qed.
Lemma over_fault kd k rs e : over_ranks (fun t => sum2 (term kd k) (points t) (0, 0)) rs = Fault e -> e = DivByZero.
Proof.
  induction rs as [|t rs IH]; intros H; cbn in H; [discriminate|].
  destruct (sum2 (term kd k) (points t) (0, 0)) as [x|e1] eqn:E; cbn in H; [|injection H as <-; eapply sum2_fault; eauto].
  destruct (over_ranks _ rs) as [y|e1] eqn:E2; cbn in H; [discriminate|]. injection H as <-. auto.
Qed.
Lemma functional_perm kd k rs rs' : Permutation (all_points rs) (all_points rs') -> functional kd k rs = functional kd k rs'.
Proof.
  intros P. unfold functional. destruct (rltb 0 (k_s0 k)) eqn:S0; [|reflexivity]. cbn [assert_].
  assert (E : over_ranks (fun t => sum2 (term kd k) (points t) (0, 0)) rs = over_ranks (fun t => sum2 (term kd k) (points t) (0, 0)) rs'); [|rewrite E; auto].
  assert (K : forall a b, Permutation (all_points a) (all_points b) -> forall x, over_ranks (fun t => sum2 (term kd k) (points t) (0, 0)) a = Ok x ->
     over_ranks (fun t => sum2 (term kd k) (points t) (0, 0)) b = Ok x).
  { intros a b AB x X.
    assert (A : forall d, In d (all_points a) -> term kd k d = Ok (tv kd k d)).
    { intros d D. destruct (over_ranks_inv _ _ _ X d D) as (y & Y). rewrite (tv_ok _ _ _ _ Y). auto. }
    rewrite (over_ranks_ok _ (tv kd k)) in X by auto. rewrite (over_ranks_ok _ (tv kd k)).
    - rewrite <- X. f_equal. f_equal; symmetry; apply lsum_perm, Permutation_map; auto.
    - intros d D. apply A. eapply Permutation_in; [apply Permutation_sym|]; eauto. }
  destruct (over_ranks _ rs) as [x|e] eqn:E1.
  - symmetry. eapply K; eauto.
  - destruct (over_ranks _ rs') as [x'|e'] eqn:E2.
    + rewrite (K _ _ (Permutation_sym P) _ E2) in E1. discriminate.
    + f_equal. rewrite (over_fault _ _ _ _ E1), (over_fault _ _ _ _ E2). auto.
Qed.

(** The linear form of assemble, when it has a value. *)
Lemma assemble_lin kd k o s v : assemble kd k o s = Ok v -> exists c1 c2, forall s, assemble kd k o s = Ok (c1 * fst s - c2 * snd s).
Proof.
  unfold assemble. destruct kd; intros H.
  - apply bind_ok in H. destruct H as (m & H1 & H). apply bind_ok in H. destruct H as (i & H2 & H). apply bind_ok in H. destruct H as (y & H3 & H).
    apply bind_ok in H. destruct H as (a & H4 & H). apply bind_ok in H. destruct H as (b & H5 & H). apply rdiv_inv in H4. destruct H4 as (N & _).
    exists (k_s0 k / k_p k * y / t_J o), (k_s0 k / k_p k * y * b). intros s'. rewrite H1. cbn [bind]. rewrite H2. cbn [bind]. rewrite H3. cbn [bind].
    rewrite rdiv_ok by auto. cbn [bind]. rewrite H5. cbn [bind]. f_equal. unfold Rdiv. ring.
  - apply bind_ok in H. destruct H as (m & H1 & H). apply bind_ok in H. destruct H as (i & H2 & H). apply bind_ok in H. destruct H as (y & H3 & H).
    apply bind_ok in H. destruct H as (a & H4 & H). apply bind_ok in H. destruct H as (b & H5 & H). apply rdiv_inv in H4. destruct H4 as (N & _).
    exists (y / t_J o), (y * b). intros s'. rewrite H1. cbn [bind]. rewrite H2. cbn [bind]. rewrite H3. cbn [bind].
    rewrite rdiv_ok by auto. cbn [bind]. rewrite H5. cbn [bind]. f_equal. unfold Rdiv. ring.
  - exists 1, 1. intros. f_equal. ring.
Qed.
Lemma sum_ranks_inv k (tm : datum -> outcome (R * R)) as_ rs v :
  sum_ranks (sum_elems (fun l => assert_ (rltb 0 (k_s0 k)) (s <- sum2 tm l (0, 0) ;; as_ s))) rs = Ok v ->
  all_points rs <> [] -> 0 < k_s0 k /\ (exists s v', as_ s = Ok v') /\ forall d, In d (all_points rs) -> exists y, tm d = Ok y.
Proof.
  assert (E : forall t v, sum_elems (fun l => assert_ (rltb 0 (k_s0 k)) (s <- sum2 tm l (0, 0) ;; as_ s)) t = Ok v ->
     (forall d, In d (points t) -> exists y, tm d = Ok y) /\ (points t <> [] -> 0 < k_s0 k /\ exists s v', as_ s = Ok v')).
  { induction t as [|[e l] t IH]; intros w H; [split; [intros d []|cbn; congruence]|]. cbn [sum_elems] in H.
    apply bind_ok in H. destruct H as (a & A & H). apply bind_ok in H. destruct H as (b & Bb & H).
    apply assert_ok in A. destruct A as (S0 & A). apply rltb_true in S0. apply bind_ok in A. destruct A as (s & A1 & A2).
    destruct (IH _ Bb) as (I1 & I2). split; [|eauto]. intros d D. cbn in D. apply in_app_iff in D. destruct D as [D|D]; auto. eapply sum2_inv; eauto. }
  assert (Q : sum_ranks (sum_elems (fun l => assert_ (rltb 0 (k_s0 k)) (s <- sum2 tm l (0, 0) ;; as_ s))) rs = Ok v ->
     (forall d, In d (all_points rs) -> exists y, tm d = Ok y) /\ (all_points rs <> [] -> 0 < k_s0 k /\ exists s v', as_ s = Ok v')).
  { revert v. induction rs as [|t rs IH]; intros v H; [split; [intros d []|cbn; congruence]|]. cbn [sum_ranks] in H.
    apply bind_ok in H. destruct H as (a & A & H). apply bind_ok in H. destruct H as (b & Bb & H).
    destruct (E _ _ A) as (E1 & E2). destruct (IH _ Bb) as (I1 & I2). split.
    - intros d D. cbn in D. apply in_app_iff in D. destruct D; auto.
    - intros N. destruct (points t) as [|d0 l] eqn:P; [apply I2; cbn in N; rewrite P in N; auto|]. apply E2. congruence. }
  intros H N. destruct (Q H) as (A & B). destruct (B N) as (B1 & B2). auto.
Qed.
Lemma sens_perm kd k o f rs rs' v : Permutation (all_points rs) (all_points rs') -> all_points rs <> [] ->
  sens_total kd k o f rs = Ok v -> sens_total kd k o f rs' = Ok v.
Proof.
  intros P NE H. destruct (sum_ranks_inv k (fun d => de <- dmises_dp d f ;; sens_term kd k d de) (assemble kd k o) rs v H NE) as (S0 & (s & v' & A) & T).
  destruct (assemble_lin _ _ _ _ _ A) as (c1 & c2 & L).
  set (g := fun d => match (de <- dmises_dp d f ;; sens_term kd k d de) with Ok x => x | Fault _ => (0, 0) end).
  assert (G : forall d, In d (all_points rs) -> (de <- dmises_dp d f ;; sens_term kd k d de) = Ok (g d)).
  { intros d D. destruct (T d D) as (y & Y). unfold g. rewrite Y. auto. }
  pose proof (sum_ranks_lin _ g k (assemble kd k o) c1 c2 rs S0 L G) as R1.
  assert (R2 : sens_total kd k o f rs' = Ok (c1 * S1 g (all_points rs') - c2 * S2 g (all_points rs'))).
  { apply (sum_ranks_lin _ g k (assemble kd k o) c1 c2 rs' S0 L). intros d D. apply G. eapply Permutation_in; [apply Permutation_sym|]; eauto. }
  change (sens_total kd k o f rs = Ok (c1 * S1 g (all_points rs) - c2 * S2 g (all_points rs))) in R1.
  rewrite R1 in H. rewrite R2, <- H. unfold S1, S2. do 3 f_equal; apply lsum_perm, Permutation_map, Permutation_sym; auto.
Qed.

(** ** Maximum *)
Lemma max_points_spec l : forall m, exists r, max_points l m = Ok r /\ m <= r /\ (forall d, In d l -> mises (d_s d) <= r) /\
  (r = m \/ exists d, In d l /\ r = mises (d_s d)).
Proof.
  induction l as [|d l IH]; intros m; cbn [max_points].
  - exists m. split; auto. split; [lra|]. split; [intros d []|auto].
  - rewrite von_mises_ok. cbn [bind]. destruct (IH (if rltb m (mises (d_s d)) then mises (d_s d) else m)) as (r & A & B & C & D).
    exists r. split; auto. assert (K : m <= (if rltb m (mises (d_s d)) then mises (d_s d) else m) /\ mises (d_s d) <= (if rltb m (mises (d_s d)) then mises (d_s d) else m)) by (rb; lra).
    split; [lra|]. split.
    + intros e [<-|E]; auto. lra.
    + destruct D as [D|(e & E & F)]; [|right; exists e; split; auto; right; auto]. revert D. rb; intros ->; auto. right. exists d. split; auto. left; auto.
Qed.
