(** C184, C185: balances of the flow element and the matrix of its interior residual. *)
From Coq Require Import Reals.
From Coquelicot Require Import Coquelicot.
From Coq Require Import List Arith Bool Lra Lia.
From Verif Require Import Base BaseLemmas RBool Stre_Proofs Stre_Proofs2 Flui_Model Flui_Spec Flui_Proofs Flui_Proofs2 Flui_Proofs3 Flui_Proofs5 Flui_Proofs6 Flui_Props Heat_Proofs Sens_Proofs2 Cfe_Model Cfe_Spec Cfe_Proofs Cfe_Proofs2 Cfe_Proofs3 Cfe_Proofs4.
Import ListNotations.
Open Scope R_scope.

Section C184.
Variables (d : nat) (cp cv : R) (nphi : nat).
Hypothesis D : valid_dim d.
Hypothesis G : 0 < cv < cp.
Let st := state_at d cp cv nphi.

(** Flows with positive density and temperature at the points can be evaluated, and only these. *)
Theorem C184_runs tau_of shock qps x :
  (exists f j, internal_residual d cp cv nphi tau_of shock qps x = Ok (f, j)) <-> physical d cp cv nphi x qps.
Proof.
  split.
  - intros (f & j & H) q I. apply (good_iff d cp cv nphi G). apply (internal_sum d cp cv nphi D G tau_of shock qps x f j H); auto.
  - intros H. apply internal_runs; auto.
Qed.
(** The interior creates no mass, momentum or energy: the entries of every equation sum up to zero,
    whatever the stabilisation and the shock capturing. *)
Theorem C184_interior tau_of shock qps x f j : internal_residual d cp cv nphi tau_of shock qps x = Ok (f, j) ->
  (forall q, In q qps -> flat d nphi q) -> forall v, sum nphi (f v) = 0.
Proof.
  intros H FL v. destruct (internal_sum d cp cv nphi D G tau_of shock qps x f j H) as (_ & F & _).
  rewrite (sum_ext _ _ _ (fun a _ => F v a)). rewrite (tot_sum nphi (fun q a => vol_f d cp cv nphi _ _ x q _ v a)). apply tot_0. intros q I.
  unfold vol_f. rewrite sum_plus, sum_swap.
  rewrite (sum_0 d); [|].
  - rewrite sum_scal_l. rewrite sum_swap. rewrite sum_0; [ring|]. intros i Hi. rewrite sum_scal_r.
    unfold ls_op. rewrite sum_swap. rewrite sum_0; [ring|]. intros k Hk. rewrite sum_scal_l. rewrite sum_swap.
    rewrite sum_0; [ring|]. intros c Hc. rewrite sum_scal_l. rewrite (FL q I c Hc). ring.
  - intros c Hc.
    rewrite (sum_ext _ _ (fun a => fq_dN q c a * (- (fq_w q * flux_fn d c (state_at d cp cv nphi x q) v) + fq_w q * dc_at shock q x c * fe_dU nphi q x c v))) by (intros; ring).
    rewrite sum_scal_r. rewrite (FL q I c Hc). ring.
Qed.
(** The rate term sums up to the rate of the contents. *)
Theorem C184_storage tau_of qps x xd f j j' : velocity_residual d cp cv nphi tau_of qps x xd = Ok (f, j, j') ->
  (forall q, In q qps -> unity nphi q /\ flat d nphi q) ->
  forall v, sum nphi (f v) = tot (fun q => fq_w q * fe_U nphi q xd v) qps.
Proof.
  intros H FL v. destruct (velocity_sum d cp cv nphi D G tau_of qps x xd f j j' H) as (_ & F & _).
  rewrite (sum_ext _ _ _ (fun a _ => F v a)). rewrite (tot_sum nphi (fun q a => vel_f d cp cv nphi _ xd q _ v a)). apply tot_ext. intros q I. destruct (FL q I) as [U1 F1].
  unfold vel_f. rewrite sum_plus, !sum_scal_l, sum_scal_r. unfold unity in U1. replace (sum nphi (fq_N q)) with 1 by (symmetry; exact U1).
  rewrite sum_swap. rewrite (sum_0 (nun d)); [ring|]. intros i Hi. rewrite sum_scal_r.
  unfold ls_op. rewrite sum_swap. rewrite sum_0; [ring|]. intros k Hk. rewrite sum_scal_l. rewrite sum_swap.
  rewrite sum_0; [ring|]. intros c Hc. rewrite sum_scal_l. rewrite (F1 c Hc). ring.
Qed.
(** The sides sum up to the fluxes through them. *)
Lemma sides_total sides x f j v : side_external_residual d cp cv nphi sides x (ev0, em0) = Ok (f, j) -> (forall sc, In sc sides -> far_unit d sc) ->
  (forall sc q, In sc sides -> In q (fst sc) -> unity nphi q) ->
  sum nphi (f v) = tot (fun sc => tot (fun q => fq_w q * pt_flux d cp cv nphi x (snd sc) q v) (fst sc)) sides.
Proof.
  intros H FU UN. destruct (sides_sum d cp cv nphi D G sides x (ev0, em0) f j H FU) as (_ & F & _).
  rewrite (sum_ext _ _ _ (fun a _ => F v a)). cbn [fst]. unfold ev0.
  rewrite (sum_ext _ _ (fun a => tot (fun sc => side_f d cp cv nphi x sc v a) sides)) by (intros; ring).
  rewrite (tot_sum nphi (fun sc a => side_f d cp cv nphi x sc v a)). apply tot_ext. intros sc I. unfold side_f.
  rewrite (tot_sum nphi (fun q a => adds (fq_w q) (fq_N q) (pt_flux d cp cv nphi x (snd sc) q) v a)). apply tot_ext. intros q J.
  unfold adds. rewrite sum_scal_l, sum_scal_r. f_equal. assert (E := UN sc q I J). unfold unity in E.
  replace (sum nphi (fq_N q)) with 1 by (symmetry; exact E). ring.
Qed.
(** Walls at rest: symmetry walls, and slip walls without motion. *)
Definition at_rest (c : fside) : Prop :=
  match c with SymmetryWall => True | SlipWall b => sl_vel b = None /\ sl_rot b = None | _ => False end.
Lemma rest_flux x sc q v : In q (fst sc) -> side_ok d cp cv nphi x sc -> at_rest (snd sc) -> (v < 2 + d)%nat ->
  pt_flux d cp cv nphi x (snd sc) q v = wall_flux d 0 (fq_n q) (fun _ => 0) (st x q) v.
Proof.
  intros I OK AR Hv. destruct sc as [qs [|b|inf| |]]; cbn [fst snd at_rest pt_flux side_ok] in *; try contradiction.
  - apply sym_is_wall; auto.
  - destruct OK as [_ OK]. destruct (good_facts d cp cv nphi G x q (OK q I)) as (R & _). destruct AR as [A B].
    rewrite slip_is_wall by first [assumption | apply Rgt_not_eq; exact R]. unfold wall_speed. rewrite A, B. cbn [at_pt].
    unfold dot3. rewrite sum_0; [reflexivity|]. intros; ring.
Qed.
(** A closed box: nothing passes its walls, and the momentum changes by the pressure on them. *)
Theorem C184_walls sides x f j : side_external_residual d cp cv nphi sides x (ev0, em0) = Ok (f, j) ->
  (forall sc, In sc sides -> at_rest (snd sc)) -> (forall sc q, In sc sides -> In q (fst sc) -> unity nphi q) ->
  sum nphi (f 0%nat) = 0 /\ sum nphi (f (d + 1)%nat) = 0 /\
  forall i, (i < d)%nat -> sum nphi (f (S i)) = tot (fun sc => tot (fun q => fq_w q * (p_p (st x q) * fq_n q i)) (fst sc)) sides.
Proof.
  intros H AR UN.
  assert (FU : forall sc, In sc sides -> far_unit d sc).
  { intros [qs c] I. assert (A := AR _ I). destruct c; cbn in *; auto; contradiction. }
  destruct (sides_sum d cp cv nphi D G sides x (ev0, em0) f j H FU) as (OK & _).
  assert (T : forall v, (v < 2 + d)%nat -> sum nphi (f v) = tot (fun sc => tot (fun q => fq_w q * wall_flux d 0 (fq_n q) (fun _ => 0) (st x q) v) (fst sc)) sides).
  { intros v Hv. rewrite (sides_total sides x f j v H FU UN). apply tot_ext. intros sc I. apply tot_ext. intros q J. f_equal. apply rest_flux; auto. }
  assert (Z : forall q, sum d (fun i => match i with 0%nat => p_u1 (st x q) | 1%nat => p_u2 (st x q) | _ => p_u3 (st x q) end * 0) = 0) by (intros; apply sum_0; intros; ring).
  split; [|split].
  - rewrite T by lia. apply tot_0. intros sc _. apply tot_0. intros q _. unfold wall_flux. cbv zeta. rewrite Z. cbn [Nat.eqb]. ring.
  - rewrite T by lia. apply tot_0. intros sc _. apply tot_0. intros q _. unfold wall_flux. cbv zeta. rewrite Z.
    destruct (Nat.eqb_spec (d + 1) 0); [lia|]. rewrite Nat.eqb_refl. ring.
  - intros i Hi. rewrite T by lia. apply tot_ext. intros sc _. apply tot_ext. intros q _. f_equal. unfold wall_flux. cbv zeta. rewrite Z.
    destruct (Nat.eqb_spec (S i) 0); [lia|]. destruct (Nat.eqb_spec (S i) (d + 1)); [lia|]. replace (S i - 1)%nat with i by lia. ring.
Qed.
(** Together: in a closed box whose equations are satisfied mass and energy are constant, and the
    momentum changes by the force of the walls. *)
Theorem C184_balance tau_of shock qps sides x xd f1 j1 f2 j2 j2' f3 j3 :
  internal_residual d cp cv nphi tau_of shock qps x = Ok (f1, j1) ->
  velocity_residual d cp cv nphi tau_of qps x xd = Ok (f2, j2, j2') ->
  side_external_residual d cp cv nphi sides x (ev0, em0) = Ok (f3, j3) ->
  (forall q, In q qps -> unity nphi q /\ flat d nphi q) ->
  (forall sc, In sc sides -> at_rest (snd sc)) -> (forall sc q, In sc sides -> In q (fst sc) -> unity nphi q) ->
  (forall v a, (v < 2 + d)%nat -> (a < nphi)%nat -> f1 v a + f2 v a + f3 v a = 0) ->
  tot (fun q => fq_w q * fe_U nphi q xd 0%nat) qps = 0 /\ tot (fun q => fq_w q * fe_U nphi q xd (d + 1)%nat) qps = 0 /\
  forall i, (i < d)%nat -> tot (fun q => fq_w q * fe_U nphi q xd (S i)) qps = - tot (fun sc => tot (fun q => fq_w q * (p_p (st x q) * fq_n q i)) (fst sc)) sides.
Proof.
  intros H1 H2 H3 Q AR UN EQ.
  assert (A := C184_interior tau_of shock qps x f1 j1 H1 (fun q I => proj2 (Q q I))).
  assert (B := C184_storage tau_of qps x xd f2 j2 j2' H2 Q).
  destruct (C184_walls sides x f3 j3 H3 AR UN) as (C0 & C1 & C2).
  assert (S3 : forall v, (v < 2 + d)%nat -> sum nphi (f1 v) + sum nphi (f2 v) + sum nphi (f3 v) = 0).
  { intros v Hv. rewrite <- !sum_plus. apply sum_0. intros a Ha. apply EQ; auto. }
  split; [|split]; [| |intros i Hi]; rewrite <- B.
  - assert (E := S3 0%nat ltac:(lia)). rewrite A, C0 in E. lra.
  - assert (E := S3 (d + 1)%nat ltac:(lia)). rewrite A, C1 in E. lra.
  - assert (E := S3 (S i) ltac:(lia)). rewrite A, C2 in E by lia. lra.
Qed.
End C184.

(** ** C185: the matrix of the interior residual *)
Section C185.
Variables (d : nat) (cp cv : R) (nphi : nat).
Hypothesis D : valid_dim d.
Hypothesis G : 0 < cv < cp.
Let st := state_at d cp cv nphi.
(** The strong residual sum_c A_c dU/dx_c at a point. *)
Definition strong_residual (AA : nat -> mx) (q : fpt) (x : evec) : vec := fun i => sum d (fun c => mvec (2 + d) (AA c) (fe_dU nphi q x c) i).
(** The exact derivative of the residual: the matrix times the direction plus two terms the matrix does
    not have, the change of the intrinsic time matrix and that of the shock capturing coefficient. *)
Theorem C185_derivative tau_of shock qps X t0 V (f : R -> evec) (J : R -> emat) (dtau : fpt -> mx) (ddc : fpt -> vec) (AA : fpt -> nat -> mx) :
  moving X t0 V -> locally t0 (fun t => internal_residual d cp cv nphi tau_of shock qps (X t) = Ok (f t, J t)) ->
  (forall q i j, In q qps -> (i < 2 + d)%nat -> (j < 2 + d)%nat -> is_derive (fun t => tau_of q (st (X t) q) i j) t0 (dtau q i j)) ->
  (forall q c, In q qps -> (c < d)%nat -> is_derive (fun t => dc_at shock q (X t) c) t0 (ddc q c)) ->
  (forall q c, In q qps -> (c < d)%nat -> adv_jac d c (cp - cv) cv (cp / cv) (st (X t0) q) = Ok (AA q c)) ->
  forall v a, (v < 2 + d)%nat -> is_derive (fun t => f t v a) t0
    (emul d nphi (J t0) V v a
     + tot (fun q => fq_w q * (sum d (fun c => ddc q c * (fq_dN q c a * fe_dU nphi q (X t0) c v))
                              + sum d (fun c => fq_dN q c a * mvec (2 + d) (AA q c) (mvec (2 + d) (dtau q) (strong_residual (AA q) q (X t0))) v))) qps).
Proof.
  intros M L HT HD HA v a Hv.
  assert (L0 := locally_singleton _ _ L).
  destruct (internal_sum d cp cv nphi D G tau_of shock qps (X t0) (f t0) (J t0) L0) as (K & _ & Q).
  apply (der_near (fun t => f t v a) (fun t => tot (fun q => vol_f d cp cv nphi (tau_of q (st (X t) q)) (dc_at shock q (X t)) (X t) q (st (X t) q) v a) qps)).
  { revert L. apply filter_imp. intros t Ht. apply (internal_sum d cp cv nphi D G tau_of shock qps (X t) (f t) (J t) Ht). }
  replace (emul d nphi (J t0) V v a) with (tot (fun q => emul d nphi (vol_j d cp cv nphi (tau_of q (st (X t0) q)) (dc_at shock q (X t0)) (X t0) q (st (X t0) q)) V v a) qps).
  2:{ rewrite <- (emul_tot d nphi). apply emul_ext. intros. symmetry. apply Q. }
  rewrite <- tot_plus. apply (tot_der (fun q t => vol_f d cp cv nphi (tau_of q (st (X t) q)) (dc_at shock q (X t)) (X t) q (st (X t) q) v a)). intros q I.
  replace (sum d (fun c => fq_dN q c a * mvec (2 + d) (AA q c) (mvec (2 + d) (dtau q) (strong_residual (AA q) q (X t0))) v))
    with (sum d (fun c => fq_dN q c a * mvec (nun d) (Afn d cp cv (st (X t0) q) c) (mvec (nun d) (dtau q) (res_at d cp cv nphi q (X t0) (st (X t0) q))) v)).
  - apply (der_vol d cp cv nphi D G tau_of (dtau q) (fun t => dc_at shock q (X t)) (ddc q) X t0 V q v a M (K q I)); auto.
    + rewrite nun_2; auto.
    + intros i j Hi Hj. rewrite nun_2 in *. apply HT; auto.
  - apply sum_ext. intros c Hc. f_equal. assert (E : forall c, (c < d)%nat -> AA q c = Afn d cp cv (st (X t0) q) c).
    { intros c' Hc'. assert (E := HA q c' I Hc'). rewrite adv_jac_safe in E by auto. injection E as <-. reflexivity. }
    rewrite E by auto. rewrite nun_2. apply mvec_ext. intros k Hk. apply mvec_ext. intros l Hl. unfold res_at, strong_residual. rewrite nun_2.
    apply sum_ext. intros c' Hc'. rewrite E by auto. reflexivity.
Qed.
(** Where the flow is uniform the matrix is the derivative. *)
Theorem C185_uniform_partial tau_of shock qps X t0 V (f : R -> evec) (J : R -> emat) :
  moving X t0 V -> locally t0 (fun t => internal_residual d cp cv nphi tau_of shock qps (X t) = Ok (f t, J t)) ->
  (forall q i j, In q qps -> (i < 2 + d)%nat -> (j < 2 + d)%nat -> ex_derive (fun t => tau_of q (st (X t) q) i j) t0) ->
  (forall q c, In q qps -> (c < d)%nat -> ex_derive (fun t => dc_at shock q (X t) c) t0) ->
  (forall q c v, In q qps -> (c < d)%nat -> (v < 2 + d)%nat -> fe_dU nphi q (X t0) c v = 0) ->
  forall v a, (v < 2 + d)%nat -> is_derive (fun t => f t v a) t0 (emul d nphi (J t0) V v a).
Proof.
  intros M L HT HD HU v a Hv.
  assert (E : emul d nphi (J t0) V v a = emul d nphi (J t0) V v a
     + tot (fun q => fq_w q * (sum d (fun c => Derive (fun t => dc_at shock q (X t) c) t0 * (fq_dN q c a * fe_dU nphi q (X t0) c v))
         + sum d (fun c => fq_dN q c a * mvec (2 + d) (Afn d cp cv (st (X t0) q) c) (mvec (2 + d) (fun i j => Derive (fun t => tau_of q (st (X t) q) i j) t0) (strong_residual (Afn d cp cv (st (X t0) q)) q (X t0))) v))) qps).
  { rewrite tot_0; [ring|]. intros q I. rewrite (sum_0 d); [|intros c Hc; rewrite HU by auto; ring].
    rewrite (sum_0 d); [ring|]. intros c Hc. rewrite (mvec_ext _ _ _ (fun _ => 0)).
    - unfold mvec. rewrite sum_0; [ring|]. intros; ring.
    - intros k Hk. unfold mvec. apply sum_0. intros l Hl. unfold strong_residual. rewrite sum_0; [ring|]. intros c' Hc'.
      unfold mvec. apply sum_0. intros m Hm. rewrite HU by auto. ring. }
  rewrite E.
  apply (C185_derivative tau_of shock qps X t0 V f J (fun q i j => Derive (fun t => tau_of q (st (X t) q) i j) t0) (fun q c => Derive (fun t => dc_at shock q (X t) c) t0) (fun q c => Afn d cp cv (st (X t0) q) c) M L); auto.
  - intros q i j I Hi Hj. apply Derive_correct. apply HT; auto.
  - intros q c I Hc. apply Derive_correct. apply HD; auto.
  - intros q c I Hc. apply adv_jac_safe; auto.
Qed.
(** Linearised analyses use this matrix. *)
Theorem C185_linearized tau_of shock qps x dx f j : internal_residual d cp cv nphi tau_of shock qps x = Ok (f, j) ->
  linearized_internal d cp cv nphi tau_of shock qps x dx = Ok (emul d nphi j dx, j).
Proof. intros H. unfold linearized_internal. rewrite H. reflexivity. Qed.
(** The rate term: linear in the rate with its matrix ... *)
Theorem C185_rate tau_of qps x xd f j j' : velocity_residual d cp cv nphi tau_of qps x xd = Ok (f, j, j') ->
  forall v a, (v < 2 + d)%nat -> f v a = emul d nphi j xd v a.
Proof.
  intros H v a Hv. destruct (velocity_sum d cp cv nphi D G tau_of qps x xd f j j' H) as (_ & F & Q & _).
  rewrite F. rewrite (emul_ext d nphi j (fun v a v' a' => tot (fun q => vel_j d cp cv (tau_of q (st x q)) q (st x q) v a v' a') qps)) by (intros; apply Q).
  rewrite emul_tot. apply tot_ext. intros q I. unfold vel_j, vel_f. rewrite emul_plus, !emul_scal. f_equal; f_equal.
  - unfold emul. rewrite nun_2. rewrite (sum_single _ v) by first [exact Hv | intros k Hk Nk; apply sum_0; intros; destruct (Nat.eqb_spec v k); [congruence|ring]].
    rewrite Nat.eqb_refl. unfold fe_U. rewrite <- sum_scal_l. apply sum_ext. intros. ring.
  - rewrite (emul_col d nphi (fun v a v' => ls_op d q (Afn d cp cv (st x q)) (tau_of q (st x q)) v' v a)). reflexivity.
Qed.
(** ... while the matrix for the solution is left at zero, although the stabilised rate term depends on it. *)
Theorem C185_rate_frozen tau_of qps x xd f j j' : velocity_residual d cp cv nphi tau_of qps x xd = Ok (f, j, j') -> j' = em0.
Proof. intros H. destruct (velocity_sum d cp cv nphi D G tau_of qps x xd f j j' H) as (_ & _ & _ & E). exact E. Qed.
End C185.

(** ** A concrete flow *)
(** One dimension, two shape functions on an element of length two, one point in the middle. *)
Definition q1 : fpt := mkFpt 2 (fun _ => 1/2) (fun _ a => match a with 0%nat => -1/2 | _ => 1/2 end) (fun _ => 1) (fun _ => 0).
Definition flow1 : evec := fun v a => match v, a with 0%nat, 0%nat => 1/2 | 0%nat, _ => 3/2 | 1%nat, _ => 1 | _, _ => 3 end.
Lemma flow1_U v : fe_U 2 q1 flow1 v = match v with 0%nat => 1 | 1%nat => 1 | _ => 3 end.
Proof. unfold fe_U. destruct v as [|[|v]]; cbn; lra. Qed.
Lemma flow1_ok : physical 1 2 1 2 flow1 [q1].
Proof.
  intros q [<-|[]]. unfold state_at. cbn [prim_of p_rho p_T]. rewrite !flow1_U. cbn. lra.
Qed.
Example C184_witness : (exists f j, internal_residual 1 2 1 2 (fun _ _ => mx0) None [q1] flow1 = Ok (f, j)) /\ unity 2 q1 /\ flat 1 2 q1.
Proof.
  split; [|split].
  - apply C184_runs; [left; auto|lra|apply flow1_ok].
  - unfold unity. cbn. lra.
  - intros c Hc. cbn. lra.
Qed.
(** The intrinsic time matrix is frozen in the matrix: with one that grows with the density the matrix is
    not the derivative, even without shock capturing. *)
Definition tau1 (q : fpt) (s : prim) : mx := fun i j => if Nat.eqb i j then p_rho s else 0.
Definition path1 (t : R) : evec := fun v a => match v with 0%nat => flow1 0%nat a + t | _ => flow1 v a end.
Definition dir1 : evec := fun v _ => match v with 0%nat => 1 | _ => 0 end.
Lemma path1_U t v : fe_U 2 q1 (path1 t) v = match v with 0%nat => 1 + t | 1%nat => 1 | _ => 3 end.
Proof. unfold fe_U. destruct v as [|[|v]]; cbn; lra. Qed.
Lemma path1_dU v : fe_dU 2 q1 (path1 0) 0 v = match v with 0%nat => 1/2 | _ => 0 end.
Proof. unfold fe_dU. destruct v as [|[|v]]; cbn; lra. Qed.
Lemma path1_near : locally 0 (fun t => physical 1 2 1 2 (path1 t) [q1]).
Proof.
  exists (mkposreal (1/2) ltac:(lra)). intros t Ht. change (Rabs (t - 0) < 1/2) in Ht. apply Rabs_def2 in Ht.
  intros q [<-|[]]. unfold state_at. cbn [prim_of p_rho p_T]. rewrite !path1_U. cbn. split; [lra|].
  replace ((3 / (1 + t) - 1 / 2 * (1 / (1 + t) * (1 / (1 + t)) + 0 * 0 + 0 * 0)) / 1) with ((6 * (1 + t) - 1) / (2 * ((1 + t) * (1 + t)))) by (field; lra).
  apply Rdiv_lt_0_compat; [lra|]. apply Rmult_lt_0_compat; [lra|]. apply Rmult_lt_0_compat; lra.
Qed.
Theorem C185_frozen_refuted : exists tau_of qps X V (f : R -> evec) (J : R -> emat) v a (df : R),
  moving X 0 V /\ locally 0 (fun t => internal_residual 1 2 1 2 tau_of None qps (X t) = Ok (f t, J t)) /\
  (forall q i j, In q qps -> ex_derive (fun t => tau_of q (state_at 1 2 1 2 (X t) q) i j) 0) /\
  (v < 3)%nat /\ (a < 2)%nat /\ is_derive (fun t => f t v a) 0 df /\ df <> emul 1 2 (J 0) V v a.
Proof.
  set (run := fun t => match internal_residual 1 2 1 2 tau1 None [q1] (path1 t) with Ok r => r | Fault _ => (ev0, em0) end).
  assert (D1 : valid_dim 1) by (left; auto). assert (G1 : 0 < 1 < 2) by lra.
  assert (L : locally 0 (fun t => internal_residual 1 2 1 2 tau1 None [q1] (path1 t) = Ok (fst (run t), snd (run t)))).
  { generalize path1_near. apply filter_imp. intros t Ht. unfold run.
    destruct (proj2 (C184_runs 1 2 1 2 D1 G1 tau1 None [q1] (path1 t)) Ht) as (f & j & E). rewrite E. reflexivity. }
  assert (M : moving path1 0 dir1).
  { intros v a. destruct v as [|v]; cbn.
    - apply (der_ext (fun t => flow1 0%nat a + t) _ _ (0 + 1)); [reflexivity|ring|]. apply der_plus; [apply der_const|apply @is_derive_id].
    - apply der_const. }
  set (dt := fun i j : nat => if Nat.eqb i j then 1 else 0).
  assert (HT : forall q i j, In q [q1] -> is_derive (fun t => tau1 q (state_at 1 2 1 2 (path1 t) q) i j) 0 (dt i j)).
  { intros q i j [<-|[]]. unfold tau1, dt. destruct (Nat.eqb i j); [|apply der_const].
    apply (der_ext (fun t => 1 + t) _ _ (0 + 1)); [intros t; unfold state_at; cbn [prim_of p_rho]; apply path1_U|ring|].
    apply der_plus; [apply der_const|apply @is_derive_id]. }
  set (AA := fun (q : fpt) c => Afn 1 2 1 (state_at 1 2 1 2 (path1 0) q) c).
  assert (DV := C185_derivative 1 2 1 2 D1 G1 tau1 None [q1] path1 0 dir1 (fun t => fst (run t)) (fun t => snd (run t)) (fun _ => dt) (fun _ _ => 0) AA M L
    (fun q i j I _ _ => HT q i j I) (fun q c I Hc => der_const 0 0) (fun q c I Hc => adv_jac_safe 1 c (2 - 1) 1 (2 / 1) _ D1 Hc) 0%nat 1%nat ltac:(lia)).
  exists tau1, [q1], path1, dir1, (fun t => fst (run t)), (fun t => snd (run t)), 0%nat, 1%nat. eexists.
  split; [exact M|]. split; [exact L|]. split; [intros q i j I; eexists; apply HT; auto|]. split; [lia|]. split; [lia|].
  split; [exact DV|]. clear DV L M HT.
  intros E. assert (Z : forall u w : R, u + w = u -> w = 0) by (intros; lra). apply Z in E. revert E. clear Z.
  cbn [tot Nat.add]. unfold AA.
  assert (A0 : forall j, Afn 1 2 1 (state_at 1 2 1 2 (path1 0) q1) 0 0%nat j = match j with 1%nat => 1 | _ => 0 end).
  { intros j. unfold Afn. destruct j as [|[|[|j]]]; ev; reflexivity. }
  assert (A1 : Afn 1 2 1 (state_at 1 2 1 2 (path1 0) q1) 0 1%nat 0%nat = -1/2).
  { unfold Afn. ev. unfold state_at. cbn [prim_of p_u1 p_u2 p_u3 p_k p_T p_e]. rewrite !path1_U. cbn. lra. }
  assert (RS : strong_residual 1 2 (fun c => Afn 1 2 1 (state_at 1 2 1 2 (path1 0) q1) c) q1 (path1 0) 1%nat = -1/4).
  { unfold strong_residual, mvec. cbn [sum Nat.add]. rewrite !path1_dU, A1. lra. }
  cbn [sum]. unfold mvec at 1. cbn [sum]. rewrite !A0. unfold mvec. cbn [sum]. rewrite RS. unfold dt. cbn [Nat.eqb]. cbn [q1 fq_w fq_dN]. lra.
Qed.
Print Assumptions C184_balance.
Print Assumptions C185_derivative.
Print Assumptions C185_uniform_partial.
