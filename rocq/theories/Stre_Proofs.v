(** Calculus of pow and of the von Mises stress. *)
From Coq Require Import List Arith NArith ZArith Lia Reals Lra Bool.
From Verif Require Import Base BaseLemmas RBool Stre_Model Stre_Spec.
Import ListNotations.
Open Scope R_scope.

(** ** near *)
Lemma near_and t0 P Q : near t0 P -> near t0 Q -> near t0 (fun t => P t /\ Q t).
Proof.
  intros (d & D & H) (d' & D' & H'). exists (Rmin d d'). split; [apply Rmin_glb_lt; auto|].
  intros t T. split; [apply H|apply H']; eapply Rlt_le_trans; eauto; [apply Rmin_l|apply Rmin_r].
Qed.
Lemma near_all t0 (P : R -> Prop) : (forall t, P t) -> near t0 P.
Proof. intros H. exists 1. split; [lra|auto]. Qed.
Lemma near_impl t0 (P Q : R -> Prop) : (forall t, P t -> Q t) -> near t0 P -> near t0 Q.
Proof. intros H (d & D & K). exists d. auto. Qed.
Lemma near_here t0 (P : R -> Prop) : near t0 P -> P t0.
Proof. intros (d & D & K). apply K. replace (t0 - t0) with 0 by ring. rewrite Rabs_R0. auto. Qed.
Lemma near_list {A} t0 (P : A -> R -> Prop) l : (forall x, In x l -> near t0 (P x)) -> near t0 (fun t => forall x, In x l -> P x t).
Proof.
  induction l as [|a l IH]; intros H; [apply near_all; intros t x []|].
  apply near_impl with (P := fun t => P a t /\ forall x, In x l -> P x t).
  - intros t (A1 & A2) x [<-|Hx]; auto.
  - apply near_and; [apply H; left; auto|apply IH; intros x Hx; apply H; right; auto].
Qed.
(** Continuity of a differentiable function. *)
Lemma deriv_cont g t0 l eps : derivable_pt_lim g t0 l -> 0 < eps -> near t0 (fun t => Rabs (g t - g t0) < eps).
Proof.
  intros D E. assert (C : continuity_pt g t0) by (apply derivable_continuous_pt; exists l; exact D).
  destruct (C eps E) as (d & D1 & D2). exists d. split; auto. intros t T.
  destruct (Req_dec t t0) as [->|N].
  - replace (g t0 - g t0) with 0 by ring. rewrite Rabs_R0. auto.
  - apply D2. split; [split; [exact I|auto]|]. exact T.
Qed.
Lemma near_comp g t0 l (P : R -> Prop) : derivable_pt_lim g t0 l -> near (g t0) P -> near t0 (fun t => P (g t)).
Proof.
  intros D (d & D1 & D2). eapply near_impl; [|eapply deriv_cont; eauto]. intros t T. apply D2. exact T.
Qed.
Lemma deriv_ext f g t0 l : near t0 (fun t => f t = g t) -> derivable_pt_lim f t0 l -> derivable_pt_lim g t0 l.
Proof.
  intros (d & D1 & D2) H eps E. destruct (H eps E) as (e & K).
  assert (P : 0 < Rmin d e) by (apply Rmin_glb_lt; auto; apply cond_pos).
  exists (mkposreal _ P). intros h N A. cbn in A.
  rewrite <- (D2 (t0 + h)), <- (D2 t0).
  - apply K; auto. eapply Rlt_le_trans; eauto. apply Rmin_r.
  - replace (t0 - t0) with 0 by ring. rewrite Rabs_R0. auto.
  - replace (t0 + h - t0) with h by ring. eapply Rlt_le_trans; eauto. apply Rmin_l.
Qed.
Lemma near_pos g t0 l : derivable_pt_lim g t0 l -> 0 < g t0 -> near t0 (fun t => 0 < g t).
Proof.
  intros D P. eapply near_impl; [|eapply (deriv_cont g t0 l (g t0)); eauto].
  intros t T. cbn in T. apply Rabs_def2 in T. lra.
Qed.

(** ** pow *)
Lemma Int_part_IZR z : Int_part (IZR z) = z.
Proof.
  unfold Int_part. assert (up (IZR z) = (z + 1)%Z) as ->; [|lia].
  symmetry. apply tech_up; rewrite plus_IZR; lra.
Qed.
Lemma cpow_pos x y : 0 < x -> cpow x y = Ok (Rpower x y).
Proof. intros H. unfold cpow. rewrite (proj2 (rltb_true 0 x) H). auto. Qed.
Lemma cpow_0 y : 0 < y -> cpow 0 y = Ok 0.
Proof.
  intros H. unfold cpow. rewrite (proj2 (rltb_false 0 0)) by lra. rewrite (proj2 (reqb_true 0 0)) by lra.
  rewrite (proj2 (rltb_true 0 y)) by lra. auto.
Qed.
Lemma cpow_00 : cpow 0 0 = Ok 1.
Proof.
  unfold cpow. rewrite (proj2 (rltb_false 0 0)) by lra. rewrite (proj2 (reqb_true 0 0)) by lra. auto.
Qed.
Lemma cpow_Z x z : x <> 0 -> cpow x (IZR z) = Ok (powerRZ x z).
Proof.
  intros N. unfold cpow. rewrite Int_part_IZR, (proj2 (reqb_true (IZR z) (IZR z)) eq_refl). rb; try contradiction; auto.
  f_equal. symmetry. apply powerRZ_Rpower. auto.
Qed.
Lemma cpow_nat x n : cpow x (INR n) = Ok (x ^ n).
Proof.
  destruct (Req_dec x 0) as [->|N].
  - destruct n as [|n]; [apply cpow_00|]. rewrite cpow_0; [rewrite pow_i by lia; auto|]. apply lt_0_INR. lia.
  - rewrite INR_IZR_INZ, cpow_Z by auto. rewrite pow_powerRZ. auto.
Qed.
Definition cpv (x y : R) : R := match cpow x y with Ok v => v | Fault _ => 0 end.
Lemma cpv_ok x y v : cpow x y = Ok v -> cpv x y = v.
Proof. intros H. unfold cpv. rewrite H. auto. Qed.
Definition pow_ok (x y : R) : Prop := cpow x y = Ok (cpv x y).
Lemma pow_ok_i x y v : cpow x y = Ok v -> pow_ok x y.
Proof. intros H. unfold pow_ok. rewrite (cpv_ok _ _ _ H). auto. Qed.

(** Derivative of powerRZ. *)
Lemma powerRZ_deriv x z : x <> 0 -> derivable_pt_lim (fun u => powerRZ u z) x (IZR z * powerRZ x (z - 1)).
Proof.
  intros N. destruct z as [|p|p].
  - replace (IZR 0 * powerRZ x (0 - 1)) with 0 by ring. apply derivable_pt_lim_const.
  - cbn [powerRZ]. replace (IZR (Z.pos p) * powerRZ x (Z.pos p - 1)) with (INR (Pos.to_nat p) * x ^ pred (Pos.to_nat p)).
    + apply derivable_pt_lim_pow.
    + rewrite INR_IZR_INZ, positive_nat_Z. f_equal. rewrite pow_powerRZ. f_equal. lia.
  - cbn [powerRZ]. set (n := Pos.to_nat p).
    replace (IZR (Z.neg p) * powerRZ x (Z.neg p - 1)) with (- (INR n * x ^ pred n) / Rsqr (x ^ n)).
    + change (fun u => / u ^ n) with (/ (fun u => u ^ n))%F.
      eapply deriv_ext with (f := fun u => 1 / u ^ n); [apply near_all; intros t; unfold inv_fct, Rdiv; ring|].
      replace (- (INR n * x ^ pred n) / Rsqr (x ^ n)) with ((0 * x ^ n - INR n * x ^ pred n * 1) / Rsqr (x ^ n)) by (unfold Rdiv; ring).
      apply (derivable_pt_lim_div (fun _ => 1) (fun u => u ^ n)).
      * apply derivable_pt_lim_const.
      * apply derivable_pt_lim_pow.
      * apply pow_nonzero; auto.
    + assert (n <> 0)%nat by (unfold n; lia).
      replace (Z.neg p - 1)%Z with (- Z.of_nat (S n))%Z by (unfold n; lia).
      rewrite powerRZ_neg'. rewrite <- pow_powerRZ.
      replace (IZR (Z.neg p)) with (- INR n) by (unfold n; rewrite INR_IZR_INZ, positive_nat_Z, <- opp_IZR; f_equal).
      unfold Rsqr. replace (x ^ S n) with (x * x ^ n) by auto. replace (x ^ n) with (x * x ^ pred n) by (change (x * x ^ pred n) with (x ^ S (pred n)); f_equal; lia).
      field. split; auto. apply pow_nonzero; auto.
Qed.

Lemma smooth_deriv x y : smooth_pow x y ->
  exists v v1, cpow x y = Ok v /\ cpow x (y - 1) = Ok v1 /\ near x (fun u => pow_ok u y) /\ derivable_pt_lim (fun u => cpv u y) x (y * v1).
Proof.
  intros [H|[(N & z & ->)|(n & ->)]].
  - exists (Rpower x y), (Rpower x (y - 1)). rewrite !cpow_pos by auto. split; auto. split; auto.
    assert (NP : near x (fun u => 0 < u)). { exists x. split; auto. intros t T. apply Rabs_def2 in T. lra. }
    split.
    + eapply near_impl; [|exact NP]. intros u U. eapply pow_ok_i. apply cpow_pos. exact U.
    + eapply deriv_ext; [|apply derivable_pt_lim_power; auto]. eapply near_impl; [|exact NP].
      intros u U. cbn. symmetry. apply cpv_ok, cpow_pos, U.
  - exists (powerRZ x z), (powerRZ x (z - 1)). rewrite cpow_Z by auto. split; auto.
    replace (IZR z - 1) with (IZR (z - 1)) by (rewrite minus_IZR; auto). rewrite cpow_Z by auto. split; auto.
    assert (NP : near x (fun u => u <> 0)).
    { exists (Rabs x). split; [apply Rabs_pos_lt; auto|]. intros t T ->. replace (0 - x) with (- x) in T by ring. rewrite Rabs_Ropp in T. lra. }
    split.
    + eapply near_impl; [|exact NP]. intros u U. eapply pow_ok_i. apply cpow_Z. exact U.
    + eapply deriv_ext; [|apply powerRZ_deriv; auto]. eapply near_impl; [|exact NP].
      intros u U. cbn. symmetry. apply cpv_ok, cpow_Z, U.
  - exists (x ^ S n), (x ^ n). rewrite cpow_nat. split; auto.
    replace (INR (S n) - 1) with (INR n) by (rewrite S_INR; ring). rewrite cpow_nat. split; auto. split.
    + apply near_all. intros u. eapply pow_ok_i. apply cpow_nat.
    + eapply deriv_ext; [|apply (derivable_pt_lim_pow x (S n))]. apply near_all. intros u. symmetry. apply cpv_ok, cpow_nat.
Qed.

Lemma deriv_comp f g t0 a b : derivable_pt_lim g t0 b -> derivable_pt_lim f (g t0) a -> derivable_pt_lim (fun t => f (g t)) t0 (a * b).
Proof. intros G F. exact (derivable_pt_lim_comp g f t0 b a G F). Qed.
Lemma deriv_eq f t0 a b : a = b -> derivable_pt_lim f t0 a -> derivable_pt_lim f t0 b.
Proof. intros ->; auto. Qed.

(** Small bases: x^p <= x for 0 <= x <= 1 and 1 <= p. *)
Lemma cpv_small x p : 0 <= x <= 1 -> 1 <= p -> 0 <= cpv x p <= x.
Proof.
  intros H P. destruct (Req_dec x 0) as [->|N].
  - rewrite (cpv_ok 0 p 0) by (apply cpow_0; lra). lra.
  - rewrite (cpv_ok x p _ (cpow_pos x p ltac:(lra))). split; [left; apply exp_pos|].
    unfold Rpower. rewrite <- (exp_ln x) at 2 by lra.
    assert (L : ln x <= 0). { destruct (Req_dec x 1) as [->|N1]; [rewrite ln_1; lra|]. left. rewrite <- ln_1. apply ln_increasing; lra. }
    assert (K : p * ln x <= ln x) by nra.
    destruct K as [K|K]; [left; apply exp_increasing; auto|rewrite K; lra].
Qed.
(** A power of a non-negative path. *)
Definition base_ok (g0 p : R) : Prop := 0 < g0 \/ (g0 = 0 /\ 1 <= p).
Lemma pow_path g t0 g' p : (forall t, 0 <= g t) -> derivable_pt_lim g t0 g' -> (g t0 = 0 -> g' = 0) -> base_ok (g t0) p ->
  exists v v1, cpow (g t0) p = Ok v /\ cpow (g t0) (p - 1) = Ok v1 /\ near t0 (fun t => pow_ok (g t) p) /\
    derivable_pt_lim (fun t => cpv (g t) p) t0 (p * v1 * g').
Proof.
  intros G D Z [H|(H & P)].
  - destruct (smooth_deriv (g t0) p) as (v & v1 & A & B & C & E); [left; auto|].
    exists v, v1. split; auto. split; auto. split; [exact (near_comp g t0 _ (fun u => pow_ok u p) D C)|].
    apply (deriv_comp (fun u => cpv u p) g); auto.
  - specialize (Z H). subst g'.
    assert (K : exists v1, cpow 0 (p - 1) = Ok v1).
    { destruct P as [P|P]; [exists 0; apply cpow_0; lra|exists 1]. rewrite <- P. replace (1 - 1) with 0 by ring. apply cpow_00. }
    destruct K as (v1 & K). exists 0, v1. rewrite H. split; [apply cpow_0; lra|]. split; auto. split.
    + apply near_all. intros t. specialize (G t). destruct G as [G|G].
      * eapply pow_ok_i. apply cpow_pos; auto.
      * rewrite <- G. eapply pow_ok_i. apply cpow_0. lra.
    + replace (p * v1 * 0) with 0 by ring. intros eps E.
      destruct (deriv_cont _ _ _ 1 D ltac:(lra)) as (d1 & D1 & C1).
      destruct (D eps E) as (d2 & C2).
      assert (M : 0 < Rmin d1 d2) by (apply Rmin_glb_lt; auto; apply cond_pos).
      exists (mkposreal _ M). intros h N A. cbn in A.
      assert (A1 : Rabs h < d1) by (eapply Rlt_le_trans; [exact A|apply Rmin_l]).
      assert (A2 : Rabs h < d2) by (eapply Rlt_le_trans; [exact A|apply Rmin_r]).
      specialize (C2 h N A2). specialize (C1 (t0 + h)). replace (t0 + h - t0) with h in C1 by ring. specialize (C1 A1).
      rewrite H in *. rewrite Rminus_0_r in *. rewrite (cpv_ok 0 p 0) by (apply cpow_0; lra). rewrite Rminus_0_r.
      specialize (G (t0 + h)). rewrite (Rabs_pos_eq _ G) in C1.
      destruct (cpv_small (g (t0 + h)) p ltac:(lra) P) as (S1 & S2).
      eapply Rle_lt_trans; [|exact C2]. unfold Rdiv. rewrite !Rabs_mult. apply Rmult_le_compat_r; [apply Rabs_pos|].
      rewrite !Rabs_pos_eq by lra. lra.
Qed.

(** ** von Mises stress *)
Lemma quad_mises s : quad s = ((s 0%nat - s 1%nat) ^ 2 + (s 1%nat - s 2%nat) ^ 2 + (s 2%nat - s 0%nat) ^ 2) / 2
        + 3 * (s 3%nat ^ 2 + s 4%nat ^ 2 + s 5%nat ^ 2).
Proof. unfold quad. field. Qed.
Lemma quad_nonneg s : 0 <= quad s.
Proof.
  rewrite quad_mises.
  pose proof (pow2_ge_0 (s 0%nat - s 1%nat)). pose proof (pow2_ge_0 (s 1%nat - s 2%nat)). pose proof (pow2_ge_0 (s 2%nat - s 0%nat)).
  pose proof (pow2_ge_0 (s 3%nat)). pose proof (pow2_ge_0 (s 4%nat)). pose proof (pow2_ge_0 (s 5%nat)). lra.
Qed.
Lemma mises_quad s : mises s = sqrt (quad s).
Proof. unfold mises. rewrite quad_mises. auto. Qed.
Lemma mises_pos s : 0 <= mises s.
Proof. rewrite mises_quad. apply sqrt_pos. Qed.
Lemma von_mises_ok s : von_mises s = Ok (mises s).
Proof.
  unfold von_mises. rewrite mises_quad. destruct (quad_nonneg s) as [H|H].
  - rewrite cpow_pos by auto. rewrite Rpower_sqrt; auto.
  - rewrite <- H, sqrt_0. apply cpow_0. lra.
Qed.
Lemma mises_zero s : mises s = 0 <-> quad s = 0.
Proof.
  rewrite mises_quad. split; intros H.
  - apply sqrt_eq_0; auto. apply quad_nonneg.
  - rewrite H. apply sqrt_0.
Qed.
Lemma dmises_zero s ds : mises s = 0 -> dmises s ds = Ok 0.
Proof.
  intros H. apply mises_zero in H. unfold dmises. rewrite H, Rabs_R0. rb; auto; lra.
Qed.
Lemma dmises_total s ds : exists v, dmises s ds = Ok v.
Proof.
  destruct (Req_dec (mises s) 0) as [H|H]; [exists 0; apply dmises_zero; auto|].
  unfold dmises. rb; eauto. rewrite cpow_pos; cbn; eauto.
  pose proof (quad_nonneg s). rewrite Rabs_pos_eq in E; auto.
Qed.
Lemma dmises_deriv (s : R -> nat -> R) ds t0 : (forall k, (k < 6)%nat -> derivable_pt_lim (fun t => s t k) t0 (ds k)) ->
  mises (s t0) <> 0 -> exists v, dmises (s t0) ds = Ok v /\ derivable_pt_lim (fun t => mises (s t)) t0 v.
Proof.
  intros D N. assert (Q : 0 < quad (s t0)).
  { destruct (quad_nonneg (s t0)) as [Q|Q]; auto. symmetry in Q. apply mises_zero in Q. contradiction. }
  unfold dmises. rewrite (Rabs_pos_eq _ (quad_nonneg _)). rewrite (proj2 (rltb_true _ _) Q). rewrite cpow_pos by auto. cbn [bind].
  eexists. split; [reflexivity|].
  eapply deriv_ext with (f := fun t => sqrt (quad (s t))); [apply near_all; intros; rewrite mises_quad; auto|].
  pose proof (D 0%nat ltac:(lia)) as D0. pose proof (D 1%nat ltac:(lia)) as D1. pose proof (D 2%nat ltac:(lia)) as D2.
  pose proof (D 3%nat ltac:(lia)) as D3. pose proof (D 4%nat ltac:(lia)) as D4. pose proof (D 5%nat ltac:(lia)) as D5.
  assert (SQ : forall f a, derivable_pt_lim f t0 a -> derivable_pt_lim (fun t => f t * f t) t0 (2 * f t0 * a)).
  { intros f a F. eapply deriv_eq; [|apply (derivable_pt_lim_mult f f); eauto]. ring. }
  assert (MI : forall f g a b, derivable_pt_lim f t0 a -> derivable_pt_lim g t0 b -> derivable_pt_lim (fun t => f t - g t) t0 (a - b)).
  { intros. apply (derivable_pt_lim_minus f g); auto. }
  assert (PL : forall f g a b, derivable_pt_lim f t0 a -> derivable_pt_lim g t0 b -> derivable_pt_lim (fun t => f t + g t) t0 (a + b)).
  { intros. apply (derivable_pt_lim_plus f g); auto. }
  assert (SC : forall c f a, derivable_pt_lim f t0 a -> derivable_pt_lim (fun t => c * f t) t0 (c * a)).
  { intros. apply (derivable_pt_lim_scal f); auto. }
  assert (QD : exists l, derivable_pt_lim (fun t => quad (s t)) t0 l /\ l =
     ((ds 0%nat - ds 1%nat) * (s t0 0%nat - s t0 1%nat) + (ds 1%nat - ds 2%nat) * (s t0 1%nat - s t0 2%nat) +
      (ds 2%nat - ds 0%nat) * (s t0 2%nat - s t0 0%nat)) + 6 * (ds 3%nat * s t0 3%nat + ds 4%nat * s t0 4%nat + ds 5%nat * s t0 5%nat)).
  { eexists. split.
    - unfold quad. apply PL; apply SC; repeat apply PL.
      + apply (SQ (fun t => s t 0%nat - s t 1%nat)). apply MI; eauto.
      + apply (SQ (fun t => s t 1%nat - s t 2%nat)). apply MI; eauto.
      + apply (SQ (fun t => s t 2%nat - s t 0%nat)). apply MI; eauto.
      + apply (SQ (fun t => s t 3%nat)); eauto.
      + apply (SQ (fun t => s t 4%nat)); eauto.
      + apply (SQ (fun t => s t 5%nat)); eauto.
    - cbn. field. }
  destruct QD as (l & QD & ->).
  eapply deriv_eq; [|apply (deriv_comp sqrt (fun t => quad (s t))); [exact QD|apply derivable_pt_lim_sqrt; auto]].
  rewrite Rpower_Ropp, Rpower_sqrt by auto. rewrite Rinv_mult. ring.
Qed.
