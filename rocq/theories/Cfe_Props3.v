(** C188, C189: the force on a boundary, and the sensitivity of the far field. *)
From Coq Require Import Reals.
From Coquelicot Require Import Coquelicot.
From Coq Require Import List Arith Bool Lra Lia.
From Verif Require Import Base BaseLemmas RBool Stre_Proofs Stre_Proofs2 Flui_Model Flui_Spec Flui_Proofs Flui_Proofs2 Flui_Proofs3 Flui_Proofs5 Flui_Proofs6 Flui_Props Heat_Proofs Sens_Proofs2 Cfe_Model Cfe_Spec Cfe_Proofs Cfe_Proofs2 Cfe_Proofs3 Cfe_Proofs4 Cfe_Proofs5 Cfe_Proofs6 Cfe_Props Cfe_Props2.
Import ListNotations.
Open Scope R_scope.

Section C188.
Variables (d : nat) (cp cv : R) (nphi : nat).
Hypothesis D : valid_dim d.
Hypothesis G : 0 < cv < cp.
Let st := state_at d cp cv nphi.
(** The pressure force on a side in the direction n. *)
Definition pressure_force (x : evec) (n : vec) (qs : list fpt) : R := tot (fun q => fq_w q * (p_p (st x q) * sum d (fun i => fq_n q i * n i))) qs.
Lemma F_force x n qs : dot3 (Fvec d cp cv nphi x qs) n = pressure_force x n qs.
Proof.
  unfold pressure_force, dot3, Fvec. fold st.
  assert (E : forall i, (if Nat.ltb i d then tot (fun q => fq_w q * p_p (st x q) * fq_n q i) qs else 0) * n i = if Nat.ltb i d then tot (fun q => fq_w q * p_p (st x q) * (fq_n q i * n i)) qs else 0).
  { intros i. destruct (Nat.ltb i d); [|ring]. rewrite Rmult_comm, <- tot_scal. apply tot_ext. intros; ring. }
  rewrite (sum_ext _ _ _ (fun i _ => E i)).
  dims D; cbn [sum Nat.ltb Nat.leb]; rewrite ?Rplus_0_r, ?Rplus_0_l, <- ?tot_plus; apply tot_ext; intros; ring.
Qed.
(** It can be evaluated when the flow is physical on the sides of the boundary. *)
Theorem C188_runs n x sides s : (exists r, force_evaluate d cp cv nphi n x sides s = Ok r) <-> (forall qs, In (qs, true) sides -> physical d cp cv nphi x qs).
Proof.
  split.
  - intros (r & H) qs I q J. apply evaluate_iff in H; auto. apply (good_iff d cp cv nphi G). eapply H; eauto.
  - intros H. eexists. apply evaluate_iff; auto. split; [|reflexivity]. intros qs q I J. apply (good_iff d cp cv nphi G). apply (H qs I q J).
Qed.
(** Elements with one side on the boundary, or none: the pressure force is added. *)
Theorem C188_one_partial n x sides s r : force_evaluate d cp cv nphi n x sides s = Ok r ->
  (filter snd sides = [] -> r = s) /\ (forall qs, filter snd sides = [(qs, true)] -> r = s + pressure_force x n qs).
Proof.
  intros H. apply evaluate_iff in H; auto. destruct H as [_ ->]. rewrite (running_ext _ (pressure_force x n)) by (intros; apply F_force).
  assert (F : forall b l, running (pressure_force x n) b l = running (pressure_force x n) b (filter snd l)).
  { intros b l. revert b. induction l as [|[qs p] t IH]; intros b; auto. destruct p; cbn [running filter snd]; [rewrite IH; reflexivity|apply IH]. }
  split; [intros E|intros qs E]; rewrite F, E; cbn; ring.
Qed.
(** With several sides every one is counted for itself and again for every later one. *)
Fixpoint repeated (x : evec) (n : vec) (l : list (list fpt * bool)) : R :=
  match l with [] => 0 | (qs, _) :: t => INR (S (length t)) * pressure_force x n qs + repeated x n t end.
Theorem C188_many n x sides s r : force_evaluate d cp cv nphi n x sides s = Ok r -> r = s + repeated x n (filter snd sides).
Proof.
  intros H. apply evaluate_iff in H; auto. destruct H as [_ ->]. f_equal. rewrite (running_ext _ (pressure_force x n)) by (intros; apply F_force).
  induction sides as [|[qs p] t IH]; auto. destruct p; cbn [running filter snd repeated]; auto.
  rewrite Rplus_0_l, running_count, IH, S_INR. ring.
Qed.
(** The derivative for an adjoint analysis is the gradient of what is evaluated. *)
Theorem C188_gradient n sides X t0 V (r : R -> R) s dq0 dq : moving X t0 V -> locally t0 (fun t => force_evaluate d cp cv nphi n (X t) sides s = Ok (r t)) ->
  force_derivative d cp cv nphi n (X t0) sides dq0 = Ok dq ->
  is_derive r t0 (sum (2 + d) (fun v => sum nphi (fun a => (dq v a - dq0 v a) * V v a))).
Proof.
  intros M L H. assert (L0 := locally_singleton _ _ L). apply evaluate_iff in L0; auto. destruct L0 as [OK _].
  destruct (derivative_ok d cp cv nphi D n (X t0) sides dq0 OK) as (dq' & E & Q). rewrite E in H. injection H as ->.
  apply (der_near _ (fun t => s + running (fun qs => dot3 (Fvec d cp cv nphi (X t) qs) n) 0 sides)).
  { revert L. apply filter_imp. intros t Ht. apply evaluate_iff in Ht; auto. apply Ht. }
  eapply der_to; [|apply (der_plus (fun _ => s)); [apply der_const|]].
  2:{ apply (running_der (fun t qs => dot3 (Fvec d cp cv nphi (X t) qs) n) (fun qs => sum (nun d) (fun v => sum nphi (fun a => dot3 (fun i => Gvec d cp cv nphi (X t0) qs i v a) n * V v a))) t0 sides (fun _ => 0) 0).
      - apply der_const.
      - intros qs I. apply F_der; auto. intros q J. eapply OK; eauto. }
  rewrite Rplus_0_l. rewrite nun_2. symmetry.
  rewrite (sum_ext (2 + d) _ (fun v => running (fun qs => sum nphi (fun a => dot3 (fun i => Gvec d cp cv nphi (X t0) qs i v a) n * V v a)) 0 sides * 1)).
  - rewrite (running_sum (2 + d) (fun v qs => sum nphi (fun a => dot3 (fun i => Gvec d cp cv nphi (X t0) qs i v a) n * V v a)) (fun _ => 1) sides (fun _ => 0)).
    rewrite (sum_0 (2 + d) (fun _ => 0 * 1)) by (intros; ring). apply running_ext. intros qs I. apply sum_ext. intros; ring.
  - intros v Hv. rewrite (sum_ext nphi _ (fun a => running (fun qs => dot3 (fun i => Gvec d cp cv nphi (X t0) qs i v a) n) 0 sides * V v a)) by (intros; rewrite Q; ring).
    rewrite (running_sum nphi (fun a qs => dot3 (fun i => Gvec d cp cv nphi (X t0) qs i v a) n) (V v) sides (fun _ => 0)).
    rewrite (sum_0 nphi (fun k => 0 * V v k)) by (intros; ring). ring.
Qed.
(** The sensitivity is the derivative along the sensitivity of the solution. *)
Theorem C188_sensitivity n sides X t0 V (r : R -> R) s s' r' : moving X t0 V -> locally t0 (fun t => force_evaluate d cp cv nphi n (X t) sides s = Ok (r t)) ->
  force_evaluate_sens d cp cv nphi n (X t0) V sides s' = Ok r' -> is_derive r t0 (r' - s').
Proof.
  intros M L H. assert (L0 := locally_singleton _ _ L). apply evaluate_iff in L0; auto. destruct L0 as [OK _].
  destruct (sens_loop d cp cv nphi n (X t0) V sides (fun _ => 0) s' OK) as (f' & E).
  assert (Z : dot3 (fun _ => 0) n = 0) by (unfold dot3; cbn; ring). rewrite Z in E.
  assert (H2 : Ok r' = bind (Ok (f', s' + running (fun qs => dot3 (fun i => if Nat.ltb i d then tot (fun q => fq_w q * d_p (pert_of d cp cv false (st (X t0) q) (fe_U nphi q V)) * fq_n q i) qs else 0) n) 0 sides)) (fun r : vec * R => Ok (snd r))).
  { rewrite <- H. unfold force_evaluate_sens. f_equal. exact E. }
  cbn [bind snd] in H2. injection H2 as ->.
  apply (der_near _ (fun t => s + running (fun qs => dot3 (Fvec d cp cv nphi (X t) qs) n) 0 sides)).
  { revert L. apply filter_imp. intros t Ht. apply evaluate_iff in Ht; auto. apply Ht. }
  match goal with |- is_derive _ _ (s' + ?w - s') => replace (s' + w - s') with (0 + w) by ring end.
  apply (der_plus (fun _ => s)); [apply der_const|].
  apply (running_der (fun t qs => dot3 (Fvec d cp cv nphi (X t) qs) n) _ t0 sides (fun _ => 0) 0); [apply der_const|].
  intros qs I. unfold dot3. apply (der_sum 3 (fun i t => Fvec d cp cv nphi (X t) qs i * n i) (fun i => (if Nat.ltb i d then tot (fun q => fq_w q * d_p (pert_of d cp cv false (st (X t0) q) (fe_U nphi q V)) * fq_n q i) qs else 0) * n i)).
  intros i Hi. apply (der_ext (fun t => n i * Fvec d cp cv nphi (X t) qs i) _ _ (n i * (if Nat.ltb i d then tot (fun q => fq_w q * d_p (pert_of d cp cv false (st (X t0) q) (fe_U nphi q V)) * fq_n q i) qs else 0))); [intros; ring|ring|].
  apply der_scal. unfold Fvec. destruct (Nat.ltb i d); [|apply der_const].
  apply (tot_der (fun q t => fq_w q * p_p (state_at d cp cv nphi (X t) q) * fq_n q i)). intros q J. fold st.
  apply (der_ext (fun t => (fq_w q * fq_n q i) * p_p (st (X t) q)) _ _ ((fq_w q * fq_n q i) * d_p (pert_of d cp cv false (st (X t0) q) (fe_U nphi q V)))); [intros; ring|ring|].
  apply der_scal. apply is_derive_Reals. destruct (fe_moves d cp cv nphi D G q X t0 V M (OK qs q I J)) as (_ & _ & MV). destruct MV. eassumption.
Qed.
End C188.
(** The direction is scaled to length one; a zero vector has none. *)
Theorem C188_direction nv : (direction nv = Fault DivByZero <-> (nv 0%nat = 0 /\ nv 1%nat = 0 /\ nv 2%nat = 0)) /\
  forall n, direction nv = Ok n -> dot3 n n = 1 /\ exists c, 0 < c /\ forall i, nv i = c * n i.
Proof.
  assert (P : 0 <= dot3 nv nv).
  { unfold dot3. cbn [sum]. pose proof (Rle_0_sqr (nv 0%nat)). pose proof (Rle_0_sqr (nv 1%nat)). pose proof (Rle_0_sqr (nv 2%nat)). unfold Rsqr in *. lra. }
  unfold direction. destruct (reqb (sqrt (dot3 nv nv)) 0) eqn:E.
  - apply reqb_true in E. split; [|discriminate]. split; auto. intros _. apply sqrt_eq_0 in E; auto. unfold dot3 in E. cbn [sum] in E.
    pose proof (Rle_0_sqr (nv 0%nat)). pose proof (Rle_0_sqr (nv 1%nat)). pose proof (Rle_0_sqr (nv 2%nat)). unfold Rsqr in *.
    assert (A0 : nv 0%nat * nv 0%nat = 0) by lra. assert (A1 : nv 1%nat * nv 1%nat = 0) by lra. assert (A2 : nv 2%nat * nv 2%nat = 0) by lra.
    apply Rmult_integral in A0, A1, A2. tauto.
  - apply reqb_false in E. split.
    + split; [discriminate|]. intros (A & B & C). exfalso. apply E. unfold dot3. cbn [sum]. rewrite A, B, C. replace (0 + 0 * 0 + 0 * 0 + 0 * 0) with 0 by ring. apply sqrt_0.
    + intros n H. injection H as <-. assert (S0 : 0 < sqrt (dot3 nv nv)) by (pose proof (sqrt_pos (dot3 nv nv)); lra). assert (S2 := sqrt_sqrt _ P). split.
      * unfold dot3 at 1. cbn [sum]. transitivity (dot3 nv nv / (sqrt (dot3 nv nv) * sqrt (dot3 nv nv))).
        { unfold dot3 at 7. cbn [sum]. field. apply Rgt_not_eq. exact S0. }
        rewrite S2. field. rewrite <- S2. apply Rmult_integral_contrapositive_currified; apply Rgt_not_eq; exact S0.
      * exists (sqrt (dot3 nv nv)). split; auto. intros i. field. apply Rgt_not_eq. exact S0.
Qed.
(** Two sides of an element on the boundary: the force is not the sum of the pressure forces. *)
Theorem C188_two_refuted : exists n x qs1 qs2 r, force_evaluate 1 2 1 2 n x [(qs1, true); (qs2, true)] 0 = Ok r /\
  r <> pressure_force 1 2 1 2 x n qs1 + pressure_force 1 2 1 2 x n qs2.
Proof.
  assert (D1 : valid_dim 1) by (left; auto). assert (G1 : 0 < 1 < 2) by lra.
  set (n := fun _ : nat => 1). set (x := uniform (U1 0)).
  assert (PH : forall qs, In (qs, true) [([qR], true); ([qL], true)] -> physical 1 2 1 2 x qs).
  { intros qs I. apply uni_physical; [|lra]. intros q J. destruct I as [E|[E|[]]]; injection E as <-; destruct J as [<-|[]]; unfold unity; cbn; lra. }
  destruct (proj2 (C188_runs 1 2 1 2 D1 G1 n x [([qR], true); ([qL], true)] 0) PH) as (r & E).
  exists n, x, [qR], [qL], r. split; auto. assert (M := C188_many 1 2 1 2 D1 G1 n x _ 0 r E). rewrite M.
  cbn [filter snd repeated length INR]. 
  assert (P : forall q, unity 2 q -> p_p (state_at 1 2 1 2 x q) = 5/2).
  { intros q Hq. unfold state_at, x. cbn [prim_of p_p]. rewrite !uni_U by auto. cbn. lra. }
  unfold pressure_force. cbn [tot sum]. rewrite !P by (unfold unity; cbn; lra). cbn [fq_w fq_n qR qL]. unfold n. lra.
Qed.
Example C188_witness : (exists r, force_evaluate 1 2 1 2 (fun _ => 1) flow1 [([q1], true)] 0 = Ok r) /\
  (exists dq, force_derivative 1 2 1 2 (fun _ => 1) flow1 [([q1], true)] ev0 = Ok dq).
Proof.
  assert (D1 : valid_dim 1) by (left; auto). assert (G1 : 0 < 1 < 2) by lra. split.
  - apply C188_runs; auto. intros qs [E|[]]. injection E as <-. apply flow1_ok.
  - destruct (derivative_ok 1 2 1 2 D1 (fun _ => 1) flow1 [([q1], true)] ev0) as (dq & E & _); [|eauto].
    intros qs q [E|[]] I. injection E as <-. apply good_iff; auto. apply flow1_ok; auto.
Qed.

(** ** C189: sensitivity of the sides *)
Section C189.
Variables (d : nat) (cp cv : R) (nphi : nat).
Hypothesis D : valid_dim d.
Hypothesis G : 0 < cv < cp.
Let st := state_at d cp cv nphi.
Definition dinf (fl : flight) : vec := fun v => match v with 0%nat => fl_rho_sens_rho | 1%nat => fl_rho_u_sens_rho fl 0 | 2%nat => fl_rho_u_sens_rho fl 1 | 3%nat => fl_rho_e_sens_rho fl | _ => 0 end.
Lemma far_sens_ok fl x q f : (1 < d)%nat -> good d cp cv nphi x q -> unit_normal d (fq_n q) -> exists f', far_sens_step d cp cv nphi fl x q f = Ok f' /\
  forall v a, f' v a = f v a + fq_w q * (fq_N q a * mvec (2 + d) (split_mat d incoming (Efn d cp cv (st x q) (fq_n q))) (dinf fl) v).
Proof.
  intros D2 K UN. unfold far_sens_step. rewrite K. cbn [bind]. rewrite (eig_runs d cp cv nphi D G x q K UN). cbn [bind].
  assert (W : exists z, vwrites (nun d) [Z1 0 fl_rho_sens_rho; Z1 1 (fl_rho_u_sens_rho fl 0); Z1 2 (fl_rho_u_sens_rho fl 1); Z1 3 (fl_rho_e_sens_rho fl)] (fun _ => 0) = Ok z /\ forall v, (v < 2 + d)%nat -> z v = dinf fl v).
  { dims D; [lia| |]; (eexists; split; [reflexivity|]); cbn [Nat.add]; below; reflexivity. }
  destruct W as (z & E & Q). rewrite E. cbn [bind]. eexists. split; [reflexivity|]. intros v a. unfold add_vec. rewrite nun_2. fold st.
  rewrite (mvec_ext _ _ z (dinf fl)) by auto. reflexivity.
Qed.
(** Walls add nothing. *)
Theorem C189_walls {P : Type} (p : P) fl sides x f : (forall sc, In sc sides -> match snd sc with SymmetryWall | SlipWall _ | DirichletSide => True | _ => False end) ->
  side_external_residual_sensitivity d cp cv nphi p fl sides x f = Ok f.
Proof.
  intros H. unfold side_external_residual_sensitivity. induction sides as [|[qs c] t IH]; auto. cbn [over].
  assert (C := H _ (or_introl eq_refl)). cbn [snd] in C. destruct c; try contradiction; cbn [side_sens_step snd bind]; apply IH; intros; apply H; right; auto.
Qed.
(** One dimension: the element has three unknowns, the fourth is written. *)
Theorem C189_line {P : Type} (p : P) fl inf q qs x f : d = 1%nat -> good d cp cv nphi x q -> unit_normal d (fq_n q) ->
  side_external_residual_sensitivity d cp cv nphi p fl [(q :: qs, FarField inf)] x f = Fault OutOfBounds.
Proof.
  intros D1 K UN. unfold side_external_residual_sensitivity. cbn [over]. unfold side_sens_step. cbn [snd fst over]. unfold far_sens_step. rewrite K. cbn [bind].
  rewrite (eig_runs d cp cv nphi D G x q K UN). cbn [bind]. rewrite D1. reflexivity.
Qed.
(** The flow far away of a flight condition, for the far field. *)
Definition far_of (fl : flight) : fside := FarField (fun _ => match infinity_vars d fl with Ok z => z | Fault _ => fun _ => 0 end).
(** A family of flight conditions of which only the density, or only the Mach number, changes. *)
Definition with_density (fl : flight) (rho : R) : flight := mkFlight (mkGas rho (g_T (fl_gas fl)) (g_cp (fl_gas fl)) (g_cv (fl_gas fl))) (fl_mach fl) (fl_vec fl).
Definition with_mach (fl : flight) (m : R) : flight := mkFlight (fl_gas fl) m (fl_vec fl).
(** Plane flows: the derivative of the residual of the sides when the density far away changes. *)
Theorem C189_density_partial {P : Type} (p : P) fl qs x (f : R -> evec) (j : R -> emat) g f' : d = 2%nat -> g_rho (fl_gas fl) <> 0 ->
  (forall rho, side_external_residual d cp cv nphi [(qs, far_of (with_density fl rho))] x (ev0, em0) = Ok (f rho, j rho)) ->
  (forall q, In q qs -> unit_normal d (fq_n q)) ->
  side_external_residual_sensitivity d cp cv nphi p fl [(qs, far_of fl)] x g = Ok f' ->
  forall v a, (v < 2 + d)%nat -> is_derive (fun rho => f rho v a) (g_rho (fl_gas fl)) (f' v a - g v a).
Proof.
  intros D2 R0 H UN HS v a Hv. set (r0 := g_rho (fl_gas fl)).
  destruct (far_one d cp cv nphi D G _ qs x _ _ (H r0) UN) as (K & _ & _).
  assert (S : forall l g, (forall q, In q l -> In q qs) -> exists f', over (far_sens_step d cp cv nphi fl x) l g = Ok f' /\
     forall v a, f' v a = g v a + tot (fun q => fq_w q * (fq_N q a * mvec (2 + d) (split_mat d incoming (Efn d cp cv (st x q) (fq_n q))) (dinf fl) v)) l).
  { induction l as [|q l IH]; intros g0 I; cbn [over tot].
    - exists g0. split; auto. intros; ring.
    - destruct (far_sens_ok fl x q g0 ltac:(lia) (K q (I q (or_introl eq_refl))) (UN q (I q (or_introl eq_refl)))) as (f1 & E1 & Q1). rewrite E1. cbn [bind].
      destruct (IH f1) as (f2 & E2 & Q2); [intros; apply I; right; auto|]. exists f2. split; auto. intros. rewrite Q2, Q1. ring. }
  destruct (S qs g (fun q I => I)) as (f2 & E2 & Q2). unfold side_external_residual_sensitivity in HS. cbn [over] in HS. unfold side_sens_step, far_of in HS. cbn [fst snd] in HS.
  rewrite E2 in HS. cbn [bind] in HS. injection HS as <-. rewrite Q2.
  replace (g v a + tot (fun q => fq_w q * (fq_N q a * mvec (2 + d) (split_mat d incoming (Efn d cp cv (st x q) (fq_n q))) (dinf fl) v)) qs - g v a)
    with (tot (fun q => fq_w q * (fq_N q a * mvec (2 + d) (split_mat d incoming (Efn d cp cv (st x q) (fq_n q))) (dinf fl) v)) qs) by ring.
  set (iv := fun rho => match infinity_vars d (with_density fl rho) with Ok z => z | Fault _ => fun _ => 0 end).
  apply (der_ext (fun rho => tot (fun q => fq_w q * (fq_N q a * far_flux d cp cv (fe_U nphi q x) (iv rho) (st x q) (fq_n q) v)) qs) _ _ (tot (fun q => fq_w q * (fq_N q a * mvec (2 + d) (split_mat d incoming (Efn d cp cv (st x q) (fq_n q))) (dinf fl) v)) qs)); [|reflexivity|].
  { intros rho. destruct (far_one d cp cv nphi D G _ qs x _ _ (H rho) UN) as (_ & F & _). apply F. }
  apply (tot_der (fun q rho => fq_w q * (fq_N q a * far_flux d cp cv (fe_U nphi q x) (iv rho) (st x q) (fq_n q) v))). intros q I.
  apply der_scal, der_scal. unfold far_flux. rewrite nun_2.
  eapply der_to; [|apply (der_plus (fun rho => mvec (2 + d) (split_mat d incoming (Efn d cp cv (st x q) (fq_n q))) (iv rho) v)); [|apply der_const]].
  2:{ unfold mvec. apply (der_sum (2 + d) (fun k rho => split_mat d incoming (Efn d cp cv (st x q) (fq_n q)) v k * iv rho k) (fun k => split_mat d incoming (Efn d cp cv (st x q) (fq_n q)) v k * dinf fl k)).
      intros k Hk. apply der_scal. revert k Hk. unfold iv. rewrite D2. cbn [Nat.add].
      assert (LI : forall c, is_derive (fun rho => rho * c) r0 (r0 * c / r0)).
      { intros c. apply (der_ext (fun rho => c * rho) _ _ (c * 1)); [intros; ring|unfold r0; field; exact R0|apply der_scal, @is_derive_id]. }
      below; cbn [dinf].
      - apply (der_ext (fun rho => rho) _ _ 1); [reflexivity|reflexivity|apply @is_derive_id].
      - apply (der_ext (fun rho => rho * (fl_vel fl * fl_dir fl 0)) _ _ (r0 * (fl_vel fl * fl_dir fl 0) / r0)); [intros; cbn; unfold fl_rho_u, fl_vel, fl_dir; cbn; destruct (fl_vec fl) as [[? ?] ?]; unfold g_a, g_gamma, g_R; cbn; ring| |apply LI].
        unfold fl_rho_u_sens_rho, fl_rho_u. fold r0. field. exact R0.
      - apply (der_ext (fun rho => rho * (fl_vel fl * fl_dir fl 1)) _ _ (r0 * (fl_vel fl * fl_dir fl 1) / r0)); [intros; cbn; unfold fl_rho_u, fl_vel, fl_dir; cbn; destruct (fl_vec fl) as [[? ?] ?]; unfold g_a, g_gamma, g_R; cbn; ring| |apply LI].
        unfold fl_rho_u_sens_rho, fl_rho_u. fold r0. field. exact R0.
      - apply (der_ext (fun rho => rho * (g_cv (fl_gas fl) * g_T (fl_gas fl) + 1/2 * (fl_vel fl * fl_vel fl))) _ _ (r0 * (g_cv (fl_gas fl) * g_T (fl_gas fl) + 1/2 * (fl_vel fl * fl_vel fl)) / r0)); [intros; cbn; unfold fl_rho_e, fl_q0, fl_vel; cbn; unfold g_a, g_gamma, g_R; cbn; ring| |apply LI].
        unfold fl_rho_e_sens_rho, fl_rho_e, fl_q0. fold r0. field. exact R0. }
  apply Rplus_0_r.
Qed.
End C189.

(** For a change of the Mach number the same vector comes out, which is not the derivative; and in space
    it is not the derivative for the density. *)
Definition qS : fpt := mkFpt 1 (fun _ => 1) (fun _ _ => 0) (fun i => match i with 0%nat => -1 | _ => 0 end) (fun _ => 0).
Definition flS : flight := mkFlight (mkGas 1 1 2 1) 2 (1, 0, 0).
Definition US (d : nat) : vec := fun v => if Nat.eqb v 0 then 1 else if Nat.eqb v 1 then 3 else if Nat.eqb v (d + 1) then 6 else 0.
Lemma US_at d v : fe_U 1 qS (uniform (US d)) v = US d v.
Proof. apply uni_U. unfold unity. cbn. lra. Qed.
Lemma US_state d : (d = 2 \/ d = 3)%nat -> let s := state_at d 2 1 1 (uniform (US d)) qS in p_rho s = 1 /\ p_u1 s = 3 /\ p_u2 s = 0 /\ p_u3 s = 0 /\ p_T s = 3/2 /\ p_k s = 9/2.
Proof.
  intros [->| ->]; cbv zeta; unfold state_at; cbn [prim_of p_rho p_u1 p_u2 p_u3 p_T p_k]; rewrite !US_at; cbn; repeat split; lra.
Qed.
Lemma US_good d : (d = 2 \/ d = 3)%nat -> physical d 2 1 1 (uniform (US d)) [qS] /\ unit_normal d (fq_n qS) /\
  normal_speed d (state_at d 2 1 1 (uniform (US d)) qS) (fq_n qS) <= - p_a (state_at d 2 1 1 (uniform (US d)) qS).
Proof.
  intros H. destruct (US_state d H) as (A & B & C & E & T & K). split; [|split].
  - intros q [<-|[]]. rewrite A, T. lra.
  - destruct H as [-> | ->]; unfold unit_normal; cbn; lra.
  - assert (PA : p_a (state_at d 2 1 1 (uniform (US d)) qS) = sqrt (2 / 1 * (2 - 1) * p_T (state_at d 2 1 1 (uniform (US d)) qS))) by reflexivity.
    rewrite PA, T. assert (Z : sqrt (2 / 1 * (2 - 1) * (3 / 2)) <= 3).
    { apply Rle_trans with (sqrt (3 * 3)); [apply sqrt_le_1_alt; lra|rewrite sqrt_square; lra]. }
    destruct H as [-> | ->]; unfold normal_speed; cbn [sum vel fq_n qS]; rewrite B; lra.
Qed.
Lemma US_sens {P} (p : P) d inf g : (d = 2 \/ d = 3)%nat -> exists f', side_external_residual_sensitivity d 2 1 1 p flS [([qS], FarField inf)] (uniform (US d)) g = Ok f' /\
  forall v a, (v < 2 + d)%nat -> f' v a = g v a + mvec (2 + d) (along d (Afn d 2 1 (state_at d 2 1 1 (uniform (US d)) qS)) (fq_n qS)) (dinf flS) v.
Proof.
  intros H. assert (D : valid_dim d) by (unfold valid_dim; tauto). assert (G : 0 < 1 < 2) by lra. destruct (US_good d H) as (PH & UN & SP).
  assert (K : good d 2 1 1 (uniform (US d)) qS) by (apply good_iff; auto; apply PH; left; auto).
  unfold side_external_residual_sensitivity. cbn [over]. unfold side_sens_step. cbn [fst snd over].
  destruct (far_sens_ok d 2 1 1 D G flS (uniform (US d)) qS g ltac:(lia) K UN) as (f1 & E & Q). rewrite E. cbn [bind]. exists f1. split; auto.
  intros v a Hv. rewrite Q. f_equal. cbn [fq_w fq_N qS]. rewrite !Rmult_1_l. unfold mvec. apply sum_ext. intros k Hk. f_equal.
  assert (W := split_whole d 2 1 1 D G (uniform (US d)) qS K UN v k ltac:(rewrite nun_2; auto) ltac:(rewrite nun_2; auto)). cbv zeta in W.
  assert (Z := in_fast d 2 1 1 D G (uniform (US d)) qS K UN SP v k). cbn [fq_n qS] in *. rewrite Z in W. rewrite <- W. ring.
Qed.
Lemma US_run d fl : (d = 2 \/ d = 3)%nat -> exists f j, side_external_residual d 2 1 1 [([qS], far_of d fl)] (uniform (US d)) (ev0, em0) = Ok (f, j) /\
  forall v a, (v < 2 + d)%nat -> f v a = mvec (2 + d) (along d (Afn d 2 1 (state_at d 2 1 1 (uniform (US d)) qS)) (fq_n qS)) (match infinity_vars d fl with Ok z => z | Fault _ => fun _ => 0 end) v.
Proof.
  intros H. assert (D : valid_dim d) by (unfold valid_dim; tauto). assert (G : 0 < 1 < 2) by lra. destruct (US_good d H) as (PH & UN & SP).
  assert (UN' : forall q, In q [qS] -> unit_normal d (fq_n q)) by (intros q [<-|[]]; exact UN).
  destruct (proj2 (C186_runs d 2 1 1 D G [([qS], far_of d fl)] (uniform (US d)) (ev0, em0) ltac:(intros sc [<-|[]]; exact UN'))) as ([f j] & E).
  - intros qs c [E|[]]. injection E as <- <-. split; [discriminate|]. split; [discriminate|]. intros _. exact PH.
  - exists f, j. split; auto. intros v a Hv.
    destruct (C187_inflow d 2 1 1 D G _ [qS] (uniform (US d)) f j (fun q => Afn d 2 1 (state_at d 2 1 1 (uniform (US d)) q)) E UN') as [F _].
    + intros q [<-|[]]. exact SP.
    + intros q c [<-|[]] Hc. apply adv_jac_safe; auto.
    + rewrite F by auto. cbn [tot fq_w fq_N qS]. rewrite Rplus_0_r, !Rmult_1_l. reflexivity.
Qed.
Lemma flS_a : g_a (fl_gas flS) = sqrt 2.
Proof. unfold g_a, g_gamma, g_R, flS. cbn. f_equal. lra. Qed.
Definition far_vec (d : nat) (fl : flight) : vec := match infinity_vars d fl with Ok z => z | Fault _ => fun _ => 0 end.
Lemma iv2 fl : far_vec 2 fl 0%nat = g_rho (fl_gas fl) /\ far_vec 2 fl 1%nat = fl_rho_u fl 0 /\ far_vec 2 fl 2%nat = fl_rho_u fl 1 /\ far_vec 2 fl 3%nat = fl_rho_e fl.
Proof. repeat split. Qed.
Lemma iv3 fl : far_vec 3 fl 0%nat = g_rho (fl_gas fl) /\ far_vec 3 fl 1%nat = fl_rho_u fl 0 /\ far_vec 3 fl 2%nat = fl_rho_u fl 1 /\ far_vec 3 fl 3%nat = fl_rho_u fl 2 /\ far_vec 3 fl 4%nat = fl_rho_e fl.
Proof. repeat split. Qed.
Theorem C189_mach_refuted {P : Type} (p : P) : exists fl qs x (f : R -> evec) (j : R -> emat) f' v a (df : R),
  (forall m, side_external_residual 2 2 1 1 [(qs, far_of 2 (with_mach fl m))] x (ev0, em0) = Ok (f m, j m)) /\
  (forall q, In q qs -> unit_normal 2 (fq_n q)) /\
  side_external_residual_sensitivity 2 2 1 1 p fl [(qs, far_of 2 fl)] x ev0 = Ok f' /\ (v < 4)%nat /\ (a < 1)%nat /\
  is_derive (fun m => f m v a) (fl_mach fl) df /\ df <> f' v a.
Proof.
  destruct (US_sens p 2 (fun _ => match infinity_vars 2 flS with Ok z => z | Fault _ => fun _ => 0 end) ev0 ltac:(auto)) as (f' & ES & QS).
  set (run := fun m => match side_external_residual 2 2 1 1 [([qS], far_of 2 (with_mach flS m))] (uniform (US 2)) (ev0, em0) with Ok r => r | Fault _ => (ev0, em0) end).
  exists flS, [qS], (uniform (US 2)), (fun m => fst (run m)), (fun m => snd (run m)), f', 0%nat, 0%nat, (- sqrt 2).
  split; [|split; [|split; [|split; [lia|split; [lia|split]]]]].
  - intros m. destruct (US_run 2 (with_mach flS m) ltac:(auto)) as (f & j & E & _). unfold run. rewrite E. reflexivity.
  - intros q [<-|[]]. apply US_good. auto.
  - exact ES.
  - apply (der_ext (fun m => - sqrt 2 * m) _ _ (- sqrt 2 * 1)); [|ring|apply der_scal, @is_derive_id].
    intros m. destruct (US_run 2 (with_mach flS m) ltac:(auto)) as (f & j & E & Q). unfold run. rewrite E. cbn [fst]. rewrite Q by lia.
    fold (far_vec 2 (with_mach flS m)). destruct (iv2 (with_mach flS m)) as (I0 & I1 & I2 & I3).
    unfold mvec, along, Afn. cbn [sum Nat.add]. rewrite I0, I1, I2, I3. ev. cbn [fq_n qS]. unfold fl_rho_u, fl_vel, fl_dir. cbn [with_mach fl_gas fl_mach fl_vec]. rewrite flS_a. cbn [g_rho fl_gas flS fl_vec]. ring.
  - rewrite QS by lia. unfold mvec, along, Afn. cbn [sum Nat.add dinf]. ev. cbn [fq_n qS]. unfold fl_rho_u_sens_rho, fl_rho_u, fl_vel, fl_dir. rewrite flS_a. cbn [g_rho fl_gas flS fl_mach fl_vec].
    unfold ev0. assert (0 < sqrt 2) by (apply sqrt_lt_R0; lra). lra.
Qed.
Theorem C189_space_refuted {P : Type} (p : P) : exists fl qs x (f : R -> evec) (j : R -> emat) f' v a (df : R),
  (forall rho, side_external_residual 3 2 1 1 [(qs, far_of 3 (with_density fl rho))] x (ev0, em0) = Ok (f rho, j rho)) /\
  (forall q, In q qs -> unit_normal 3 (fq_n q)) /\
  side_external_residual_sensitivity 3 2 1 1 p fl [(qs, far_of 3 fl)] x ev0 = Ok f' /\ (v < 5)%nat /\ (a < 1)%nat /\
  is_derive (fun rho => f rho v a) (g_rho (fl_gas fl)) df /\ df <> f' v a.
Proof.
  destruct (US_sens p 3 (fun _ => match infinity_vars 3 flS with Ok z => z | Fault _ => fun _ => 0 end) ev0 ltac:(auto)) as (f' & ES & QS).
  set (run := fun m => match side_external_residual 3 2 1 1 [([qS], far_of 3 (with_density flS m))] (uniform (US 3)) (ev0, em0) with Ok r => r | Fault _ => (ev0, em0) end).
  destruct (US_state 3 ltac:(auto)) as (A & B & C & E & T & K).
  exists flS, [qS], (uniform (US 3)), (fun m => fst (run m)), (fun m => snd (run m)), f', 1%nat, 0%nat, (9/2 - 3 * (2 * sqrt 2) - (1 + 1/2 * (2 * sqrt 2 * (2 * sqrt 2)))).
  split; [|split; [|split; [|split; [lia|split; [lia|split]]]]].
  - intros m. destruct (US_run 3 (with_density flS m) ltac:(auto)) as (f & j & E1 & _). unfold run. rewrite E1. reflexivity.
  - intros q [<-|[]]. apply US_good. auto.
  - exact ES.
  - apply (der_ext (fun m => (9/2 - 3 * (2 * sqrt 2) - (1 + 1/2 * (2 * sqrt 2 * (2 * sqrt 2)))) * m) _ _ ((9/2 - 3 * (2 * sqrt 2) - (1 + 1/2 * (2 * sqrt 2 * (2 * sqrt 2)))) * 1)); [|ring|apply der_scal, @is_derive_id].
    intros m. destruct (US_run 3 (with_density flS m) ltac:(auto)) as (f & j & E1 & Q). unfold run. rewrite E1. cbn [fst]. rewrite Q by lia.
    fold (far_vec 3 (with_density flS m)). destruct (iv3 (with_density flS m)) as (I0 & I1 & I2 & I3 & I4).
    unfold mvec, along, Afn. cbn [sum Nat.add]. rewrite I0, I1, I2, I3, I4. ev. rewrite B, C, E, K. cbn [fq_n qS]. unfold fl_rho_u, fl_rho_e, fl_q0, fl_vel, fl_dir. cbn [with_density fl_gas fl_mach fl_vec flS g_rho g_T g_cv g_cp].
    replace (g_a (mkGas m 1 2 1)) with (sqrt 2) by (unfold g_a, g_gamma, g_R; cbn; f_equal; lra). field.
  - rewrite QS by lia. unfold mvec, along, Afn. cbn [sum Nat.add dinf]. ev. rewrite B, C, E, K. cbn [fq_n qS]. unfold fl_rho_sens_rho, fl_rho_u_sens_rho, fl_rho_e_sens_rho, fl_rho_u, fl_rho_e, fl_q0, fl_vel, fl_dir. rewrite flS_a. cbn [g_rho g_T g_cv fl_gas flS fl_mach fl_vec].
    unfold ev0. assert (S2 : sqrt 2 * sqrt 2 = 2) by (apply sqrt_sqrt; lra). nra.
Qed.
Print Assumptions C188_many.
Print Assumptions C188_gradient.
Print Assumptions C188_sensitivity.
Print Assumptions C188_direction.
Print Assumptions C189_density_partial.
Print Assumptions C189_mach_refuted.
Print Assumptions C189_space_refuted.
