(** Proofs about the far field: characteristic splitting along a family of flows. *)
From Coq Require Import Reals.
From Coquelicot Require Import Coquelicot.
From Coq Require Import List Arith Bool Lra Lia.
From Verif Require Import Base BaseLemmas RBool Stre_Proofs Stre_Proofs2 Flui_Model Flui_Spec Flui_Proofs Flui_Proofs2 Flui_Proofs3 Flui_Proofs5 Flui_Proofs6 Flui_Props Heat_Proofs Sens_Proofs2 Cfe_Model Cfe_Spec Cfe_Proofs Cfe_Proofs2 Cfe_Proofs3 Cfe_Proofs4.
Import ListNotations.
Open Scope R_scope.

(** A product whose second factor vanishes: continuity of the first is enough. *)
Lemma der_vanish (f g : R -> R) (x b : R) : continuity_pt f x -> derivable_pt_lim g x b -> g x = 0 -> derivable_pt_lim (fun t => f t * g t) x (f x * b).
Proof.
  intros C DG Z eps He.
  set (e1 := eps / (2 * (Rabs (f x) + 1))). set (e2 := eps / (2 * (Rabs b + 1))).
  assert (PF : 0 < 2 * (Rabs (f x) + 1)) by (pose proof (Rabs_pos (f x)); lra).
  assert (PB : 0 < 2 * (Rabs b + 1)) by (pose proof (Rabs_pos b); lra).
  assert (H1 : 0 < Rmin 1 e1) by (apply Rmin_pos; [lra|apply Rdiv_lt_0_compat; auto]).
  assert (H2 : 0 < e2) by (apply Rdiv_lt_0_compat; auto).
  destruct (DG _ H1) as [d1 HD]. destruct (C e2 H2) as (d2 & P2 & HC).
  assert (PM : 0 < Rmin d1 d2) by (apply Rmin_pos; [apply cond_pos|auto]).
  exists (mkposreal _ PM). intros h Nh Hh. cbn in Hh.
  assert (A := HD h Nh (Rlt_le_trans _ _ _ Hh (Rmin_l _ _))). rewrite Z in A.
  assert (B : Rabs (f (x + h) - f x) < e2).
  { apply HC. split; [split; [exact I|lra]|]. cbn. unfold R_dist. replace (x + h - x) with h by ring. apply (Rlt_le_trans _ _ _ Hh (Rmin_r _ _)). }
  rewrite Z. set (Q := (g (x + h) - 0) / h) in *.
  replace ((f (x + h) * g (x + h) - f x * 0) / h - f x * b) with ((f (x + h) - f x) * Q + f x * (Q - b)) by (unfold Q; field; auto).
  assert (A1 : Rabs (Q - b) < 1) by (eapply Rlt_le_trans; [exact A|apply Rmin_l]).
  assert (A2 : Rabs (Q - b) < e1) by (eapply Rlt_le_trans; [exact A|apply Rmin_r]).
  assert (BQ : Rabs Q <= Rabs b + 1).
  { replace Q with ((Q - b) + b) by ring. eapply Rle_trans; [apply Rabs_triang|lra]. }
  eapply Rle_lt_trans; [apply Rabs_triang|]. rewrite !Rabs_mult.
  assert (T1 : Rabs (f (x + h) - f x) * Rabs Q <= e2 * (Rabs b + 1)) by (apply Rmult_le_compat; try apply Rabs_pos; lra).
  assert (T2 : Rabs (f x) * Rabs (Q - b) < (Rabs (f x) + 1) * e1).
  { apply Rle_lt_trans with (Rabs (f x) * e1); [apply Rmult_le_compat_l; [apply Rabs_pos|lra]|].
    apply Rmult_lt_compat_r; [apply Rdiv_lt_0_compat; auto|lra]. }
  replace (e2 * (Rabs b + 1)) with (eps / 2) in T1 by (unfold e2; field; lra).
  replace ((Rabs (f x) + 1) * e1) with (eps / 2) in T2 by (unfold e1; field; lra). lra.
Qed.

Section Far.
Variables (d : nat) (cp cv : R) (nv : vec).
Hypothesis D : valid_dim d.
Hypothesis G : 0 < cv < cp.
Hypothesis UN : unit_normal d nv.
Variables (sp : R -> prim) (t0 : R) (V : vec) (qp : pert) (da : R).
Hypothesis MV : moves d cp cv sp t0 V qp.
Hypothesis DA : derivable_pt_lim (fun t => p_a (sp t)) t0 da.
Hypothesis A0 : p_a (sp t0) <> 0.
Hypothesis T0 : p_T (sp t0) <> 0.
Hypothesis ST : state d cp cv (sp t0).
Let E t := Efn d cp cv (sp t) nv.
Lemma gm1 : cp / cv - 1 <> 0.
Proof. intros Z. assert (cp / cv = 1) by lra. apply (f_equal (fun z => z * cv)) in H. field_simplify in H; lra. Qed.
Lemma gm0 : cp / cv <> 0.
Proof. apply Rgt_not_eq. apply Rdiv_lt_0_compat; lra. Qed.
Ltac nz := repeat first [apply gm1 | apply gm0 | assumption | lra | apply Rmult_integral_contrapositive_currified].
Lemma eig_moves i k : (i < 2 + d)%nat -> (k < 2 + d)%nat ->
  (exists y, derivable_pt_lim (fun t => fst (fst (E t)) k) t0 y) /\ (exists y, derivable_pt_lim (fun t => snd (fst (E t)) i k) t0 y) /\ (exists y, derivable_pt_lim (fun t => snd (E t) i k) t0 y).
Proof.
  destruct MV as [M1 M2 M3 M4 M5 M6 M7 M8 _ _ _ _ _ _ _ _]. clear MV.
  assert (CV : cv <> 0) by lra. assert (GM := gm1). assert (GM0 := gm0). set (gm := cp / cv) in *.
  pose proof (eig_cases d cp cv (sp t0) nv D ST UN) as C. cbv zeta in C. unfold E, Efn. fold gm. clearbody gm. clear E.
  revert i k. dims D; cbn [Nat.add] in *; cbn [Nat.ltb Nat.leb] in C; destruct C as [[Q NX]|[[L [Q NX]]|[L [Q NX]]]]; try lia.
  all: intros i k Hi Hk; revert i Hi; below; revert k Hk; below; ev5; rewrite Q; ev5; (split; [|split]); eexists; dd; nz.
Qed.
End Far.

Lemma cont_mult f g x : continuity_pt f x -> continuity_pt g x -> continuity_pt (fun t => f t * g t) x.
Proof. apply (continuity_pt_mult f g x). Qed.
Lemma cont_sum n (f : nat -> R -> R) x : (forall k, (k < n)%nat -> continuity_pt (f k) x) -> continuity_pt (fun t => sum n (fun k => f k t)) x.
Proof.
  induction n; intros H; cbn [sum].
  - apply continuity_pt_const. intros u w. reflexivity.
  - apply (continuity_pt_plus (fun t => sum n (fun k => f k t)) (f n)); [apply IHn; auto|apply H; lia].
Qed.
Lemma cont_of_der f x : (exists y, derivable_pt_lim f x y) -> continuity_pt f x.
Proof. intros (y & H). apply derivable_continuous_pt. exists y. exact H. Qed.
Lemma min_form l : (if rltb l 0 then l else 0) = (l - Rabs l) * / 2.
Proof.
  destruct (rltb l 0) eqn:E.
  - apply rltb_true in E. rewrite Rabs_left by lra. lra.
  - apply rltb_false in E. rewrite Rabs_right by lra. lra.
Qed.
Lemma cont_min f x : continuity_pt f x -> continuity_pt (fun t => if rltb (f t) 0 then f t else 0) x.
Proof.
  intros H. apply (continuity_pt_ext (fun t => (f t - Rabs (f t)) * / 2)); [intros; symmetry; apply min_form|].
  apply cont_mult; [|apply continuity_pt_const; intros u w; reflexivity].
  apply (continuity_pt_minus f (fun t => Rabs (f t))); auto.
  apply (continuity_pt_comp f Rabs); auto. apply Rcontinuity_abs.
Qed.

Section FarDer.
Variables (d : nat) (cp cv : R) (nphi : nat).
Hypothesis D : valid_dim d.
Hypothesis G : 0 < cv < cp.
Let st := state_at d cp cv nphi.
Let n1 := nun d.
Variables (X : R -> evec) (t0 : R) (V : evec) (q : fpt).
Hypothesis M : moving X t0 V.
Hypothesis K : good d cp cv nphi (X t0) q.
Hypothesis UN : unit_normal d (fq_n q).
Lemma st_a : derivable_pt_lim (fun t => p_a (st (X t) q)) t0 (d_a (pert_of d cp cv false (st (X t0) q) (fe_U nphi q V))).
Proof.
  destruct (good_facts d cp cv nphi G (X t0) q K) as (R & T & _).
  apply (path_a d cp cv false (fun t => fe_U nphi q (X t)) t0 (fe_U nphi q V)); auto.
  - apply fe_follows; auto.
  - apply Rgt_not_eq. exact R.
  - lra.
Qed.
Lemma split_cont i j : (i < n1)%nat -> (j < n1)%nat -> continuity_pt (fun t => split_mat d incoming (Efn d cp cv (st (X t) q) (fq_n q)) i j) t0.
Proof.
  intros Hi Hj. unfold n1 in *. rewrite nun_2 in *.
  destruct (good_facts d cp cv nphi G (X t0) q K) as (R & T & A0 & S & _).
  destruct (fe_moves d cp cv nphi D G q X t0 V M K) as (_ & _ & MV).
  assert (T0 : p_T (st (X t0) q) <> 0) by (apply Rgt_not_eq; exact T).
  assert (E := fun i k => eig_moves d cp cv (fq_n q) D G UN (fun t => st (X t) q) t0 (fe_U nphi q V) _ _ MV st_a A0 T0 S i k).
  apply (continuity_pt_ext (fun t => sum (nun d) (fun k => snd (Efn d cp cv (st (X t) q) (fq_n q)) i k
     * (if rltb (fst (fst (Efn d cp cv (st (X t) q) (fq_n q))) k) 0 then fst (fst (Efn d cp cv (st (X t) q) (fq_n q))) k else 0)
     * snd (fst (Efn d cp cv (st (X t) q) (fq_n q))) j k))).
  { intros t. unfold split_mat, incoming. destruct (Efn d cp cv (st (X t) q) (fq_n q)) as [[lam L] LI]. reflexivity. }
  apply (cont_sum (nun d) (fun k t => snd (Efn d cp cv (st (X t) q) (fq_n q)) i k
     * (if rltb (fst (fst (Efn d cp cv (st (X t) q) (fq_n q))) k) 0 then fst (fst (Efn d cp cv (st (X t) q) (fq_n q))) k else 0)
     * snd (fst (Efn d cp cv (st (X t) q) (fq_n q))) j k)).
  intros k Hk. rewrite nun_2 in Hk. apply cont_mult; [apply cont_mult|].
  - apply cont_of_der. apply (E i k); auto.
  - apply (cont_min (fun t => fst (fst (Efn d cp cv (st (X t) q) (fq_n q))) k)). apply cont_of_der. apply (E i k); auto.
  - apply cont_of_der. apply (E j k); auto.
Qed.
End FarDer.
Lemma der_to (f : R -> R) x a b : a = b -> is_derive f x a -> is_derive f x b.
Proof. intros <-. auto. Qed.
Section FarFlux.
Variables (d : nat) (cp cv : R) (nphi : nat).
Hypothesis D : valid_dim d.
Hypothesis G : 0 < cv < cp.
Let st := state_at d cp cv nphi.
Let n1 := nun d.
Let Am x q := split_mat d incoming (Efn d cp cv (st x q) (fq_n q)).
Let Ap x q := split_mat d outgoing (Efn d cp cv (st x q) (fq_n q)).
(** The flux of the flow plus what the incoming waves bring. *)
Lemma far_form x q inf : good d cp cv nphi x q -> unit_normal d (fq_n q) -> forall v, (v < n1)%nat ->
  far_flux d cp cv (fe_U nphi q x) inf (st x q) (fq_n q) v = through d (st x q) (fq_n q) v + sum n1 (fun j => Am x q v j * (inf j - fe_U nphi q x j)).
Proof.
  intros K UN v Hv. assert (C := far_consistent d cp cv nphi D G x q (fe_U nphi q x) K UN (fun _ _ => eq_refl) v Hv). fold st in C. rewrite <- C.
  unfold far_flux, mvec. fold st n1. rewrite <- !sum_plus. apply sum_ext. intros. unfold Am. ring.
Qed.
Lemma der_through X t0 V q : moving X t0 V -> good d cp cv nphi (X t0) q -> forall v, (v < n1)%nat ->
  is_derive (fun t => through d (st (X t) q) (fq_n q) v) t0 (mvec n1 (along d (Afn d cp cv (st (X t0) q)) (fq_n q)) (fe_U nphi q V) v).
Proof.
  intros M K v Hv. unfold through.
  apply (der_ext (fun t => sum d (fun c => fq_n q c * flux_fn d c (st (X t) q) v)) _ _ (sum d (fun c => fq_n q c * mvec n1 (Afn d cp cv (st (X t0) q) c) (fe_U nphi q V) v))).
  - intros t. apply sum_ext. intros c Hc. rewrite flux_euler; auto. rewrite <- nun_2. exact Hv.
  - unfold along, mvec. rewrite (sum_ext n1 _ (fun k => sum d (fun c => fq_n q c * (Afn d cp cv (st (X t0) q) c v k * fe_U nphi q V k)))).
    + rewrite sum_swap. apply sum_ext. intros c Hc. rewrite sum_scal_l. reflexivity.
    + intros k Hk. rewrite <- sum_scal_r. apply sum_ext. intros. ring.
  - apply (der_sum d (fun c t => fq_n q c * flux_fn d c (st (X t) q) v)). intros c Hc. apply der_scal. apply (der_flux d cp cv nphi D G q X t0 V c v M K Hc Hv).
Qed.
Lemma lam_of x q : good d cp cv nphi x q -> unit_normal d (fq_n q) -> forall k, (k < n1)%nat ->
  let l := fst (fst (Efn d cp cv (st x q) (fq_n q))) k in l = normal_speed d (st x q) (fq_n q) \/ l = normal_speed d (st x q) (fq_n q) - p_a (st x q) \/ l = normal_speed d (st x q) (fq_n q) + p_a (st x q).
Proof.
  intros K UN k Hk. cbv zeta. destruct (eigenvectors d cp cv false D G (fe_U nphi q x) (st x q) (fq_n q) K UN) as (lam & L & LI & A & E & _ & _ & _ & L1 & L2 & L3).
  assert (ER := eig_runs d cp cv nphi D G x q K UN). fold st in ER. rewrite ER in E. injection E as E. rewrite E. cbn [fst].
  assert (NS : sum d (fun c => uvec d (st x q) c * fq_n q c) = normal_speed d (st x q) (fq_n q)).
  { unfold normal_speed. dims D; cbn; ring. }
  rewrite NS in *. unfold n1 in Hk. rewrite nun_2 in Hk. destruct (Nat.lt_ge_cases k d) as [Q|Q]; [left; auto|].
  assert (k = d \/ k = d + 1)%nat as [-> | ->] by lia; auto.
Qed.
Lemma a_pos x q : good d cp cv nphi x q -> 0 < p_a (st x q).
Proof.
  intros K. destruct (good_facts d cp cv nphi G x q K) as (R & T & A & S & A2). fold st in A.
  assert (0 <= p_a (st x q)) by apply sqrt_pos. lra.
Qed.
(** Outflow faster than sound lets nothing in, inflow faster than sound nothing out. *)
Lemma out_fast x q : good d cp cv nphi x q -> unit_normal d (fq_n q) -> p_a (st x q) <= normal_speed d (st x q) (fq_n q) ->
  (forall i j, Am x q i j = 0).
Proof.
  intros K UN F i j. unfold Am, split_mat. assert (L := lam_of x q K UN). pose proof (a_pos x q K). destruct (Efn d cp cv (st x q) (fq_n q)) as [[lam LL] LI]. cbn [fst snd] in L.
  apply sum_0. intros k Hk. unfold incoming. assert (Z : rltb (lam k) 0 = false); [|rewrite Z; ring].
  destruct (rltb (lam k) 0) eqn:E; auto. apply rltb_true in E. destruct (L k Hk) as [Q|[Q|Q]]; rewrite Q in E; lra.
Qed.
Lemma in_fast x q : good d cp cv nphi x q -> unit_normal d (fq_n q) -> normal_speed d (st x q) (fq_n q) <= - p_a (st x q) ->
  (forall i j, Ap x q i j = 0).
Proof.
  intros K UN F i j. unfold Ap, split_mat. assert (L := lam_of x q K UN). pose proof (a_pos x q K). destruct (Efn d cp cv (st x q) (fq_n q)) as [[lam LL] LI]. cbn [fst snd] in L.
  apply sum_0. intros k Hk. unfold outgoing. assert (Z : rltb 0 (lam k) = false); [|rewrite Z; ring].
  destruct (rltb 0 (lam k)) eqn:E; auto. apply rltb_true in E. destruct (L k Hk) as [Q|[Q|Q]]; rewrite Q in E; lra.
Qed.
(** The derivative of the flux at the flow far away, and at outflow faster than sound. *)
Lemma der_far_near X t0 V q inf : moving X t0 V -> locally t0 (fun t => good d cp cv nphi (X t) q) -> unit_normal d (fq_n q) ->
  (forall v, (v < n1)%nat -> inf v = fe_U nphi q (X t0) v) -> forall v, (v < n1)%nat ->
  is_derive (fun t => far_flux d cp cv (fe_U nphi q (X t)) inf (st (X t) q) (fq_n q) v) t0 (mvec n1 (Ap (X t0) q) (fe_U nphi q V) v).
Proof.
  intros M L UN E v Hv. assert (K := locally_singleton _ _ L).
  apply (der_near _ (fun t => through d (st (X t) q) (fq_n q) v + sum n1 (fun j => Am (X t) q v j * (inf j - fe_U nphi q (X t) j)))).
  { revert L. apply filter_imp. intros t Kt. apply far_form; auto. }
  assert (DT := der_through X t0 V q M K v Hv).
  assert (DS : is_derive (fun t => sum n1 (fun j => Am (X t) q v j * (inf j - fe_U nphi q (X t) j))) t0 (sum n1 (fun j => Am (X t0) q v j * (0 - fe_U nphi q V j)))).
  { apply (der_sum n1 (fun j t => Am (X t) q v j * (inf j - fe_U nphi q (X t) j))). intros j Hj. apply is_derive_Reals.
    apply (der_vanish (fun t => Am (X t) q v j) (fun t => inf j - fe_U nphi q (X t) j)).
    - apply (split_cont d cp cv nphi D G X t0 V q M K UN v j Hv Hj).
    - apply is_derive_Reals. apply (der_minus (fun _ => inf j) (fun t => fe_U nphi q (X t) j)); [apply der_const|apply der_fe_U; auto].
    - cbv beta. rewrite E by auto. ring. }
  eapply der_to; [|exact (der_plus _ _ _ _ _ DT DS)].
  unfold mvec. rewrite <- sum_plus. apply sum_ext. intros j Hj. assert (W := split_whole d cp cv nphi D G (X t0) q K UN v j Hv Hj). fold st in W. rewrite <- W. unfold Am, Ap. ring.
Qed.
Lemma der_far_out X t0 V q inf : moving X t0 V -> locally t0 (fun t => good d cp cv nphi (X t) q) -> unit_normal d (fq_n q) ->
  p_a (st (X t0) q) < normal_speed d (st (X t0) q) (fq_n q) -> forall v, (v < n1)%nat ->
  is_derive (fun t => far_flux d cp cv (fe_U nphi q (X t)) inf (st (X t) q) (fq_n q) v) t0 (mvec n1 (Ap (X t0) q) (fe_U nphi q V) v).
Proof.
  intros M L UN E v Hv. assert (K := locally_singleton _ _ L).
  assert (NE : locally t0 (fun t => p_a (st (X t) q) < normal_speed d (st (X t) q) (fq_n q))).
  { destruct (fe_moves d cp cv nphi D G q X t0 V M K) as (_ & _ & MV).
    assert (C : continuity_pt (fun t => normal_speed d (st (X t) q) (fq_n q) - p_a (st (X t) q)) t0).
    { apply (continuity_pt_minus (fun t => normal_speed d (st (X t) q) (fq_n q)) (fun t => p_a (st (X t) q))).
      - unfold normal_speed. apply (cont_sum d (fun c t => fq_n q c * vel (st (X t) q) c)). intros c Hc. apply cont_mult; [apply continuity_pt_const; intros u w; reflexivity|].
        apply cont_of_der. destruct MV. destruct c as [|[|c]]; cbn [vel]; eexists; eassumption.
      - apply cont_of_der. eexists. apply (st_a d cp cv nphi D G X t0 V q M K). }
    destruct (C (normal_speed d (st (X t0) q) (fq_n q) - p_a (st (X t0) q)) ltac:(lra)) as (del & P & H).
    exists (mkposreal del P). intros t Ht. destruct (Req_dec t t0) as [->|N]; auto.
    assert (Q : Rabs ((normal_speed d (st (X t) q) (fq_n q) - p_a (st (X t) q)) - (normal_speed d (st (X t0) q) (fq_n q) - p_a (st (X t0) q))) < normal_speed d (st (X t0) q) (fq_n q) - p_a (st (X t0) q)).
    { apply H. split; [split; [exact I|auto]|exact Ht]. }
    apply Rabs_def2 in Q. lra. }
  apply (der_near _ (fun t => through d (st (X t) q) (fq_n q) v)).
  { generalize (filter_and _ _ L NE). apply filter_imp. intros t [Kt Nt]. rewrite far_form by auto. rewrite sum_0; [ring|].
    intros j Hj. rewrite out_fast by first [assumption | lra]. ring. }
  eapply der_to; [|exact (der_through X t0 V q M K v Hv)].
  unfold mvec. apply sum_ext. intros j Hj. assert (W := split_whole d cp cv nphi D G (X t0) q K UN v j Hv Hj). fold st in W. rewrite <- W.
  assert (Z := out_fast (X t0) q K UN ltac:(lra) v j). unfold Am in Z. rewrite Z. unfold Ap. ring.
Qed.
End FarFlux.
