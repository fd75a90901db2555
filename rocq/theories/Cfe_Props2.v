(** C186, C187: the matrix of the sides of the flow element, and its far field. *)
From Coq Require Import Reals.
From Coquelicot Require Import Coquelicot.
From Coq Require Import List Arith Bool Lra Lia.
From Verif Require Import Base BaseLemmas RBool Stre_Proofs Stre_Proofs2 Flui_Model Flui_Spec Flui_Proofs Flui_Proofs2 Flui_Proofs3 Flui_Proofs5 Flui_Proofs6 Flui_Props Heat_Proofs Sens_Proofs2 Cfe_Model Cfe_Spec Cfe_Proofs Cfe_Proofs2 Cfe_Proofs3 Cfe_Proofs4 Cfe_Proofs5 Cfe_Props.
Import ListNotations.
Open Scope R_scope.

Section C186.
Variables (d : nat) (cp cv : R) (nphi : nat).
Hypothesis D : valid_dim d.
Hypothesis G : 0 < cv < cp.
Let st := state_at d cp cv nphi.
(** Far fields at whose points the flow is the flow far away, or leaves faster than sound. *)
Definition settled (x : evec) (sc : list fpt * fside) : Prop :=
  match snd sc with
  | FarField inf => forall q, In q (fst sc) -> (forall v, (v < 2 + d)%nat -> inf q v = fe_U nphi q x v) \/ p_a (st x q) < normal_speed d (st x q) (fq_n q)
  | _ => True
  end.
Lemma emul_side x V q c v a : emul d nphi (addm (fq_w q) (fq_N q) (pt_jac d cp cv nphi x c q)) V v a = fq_w q * (fq_N q a * mvec (nun d) (pt_jac d cp cv nphi x c q) (fe_U nphi q V) v).
Proof.
  unfold addm. rewrite emul_scal. f_equal.
  rewrite (emul_col d nphi (fun v a v' => fq_N q a * pt_jac d cp cv nphi x c q v v') (fq_N q)).
  unfold mvec, fe_U. rewrite <- sum_scal_l. apply sum_ext. intros. ring.
Qed.
Lemma der_pt X t0 V sc q : moving X t0 V -> locally t0 (fun t => side_ok d cp cv nphi (X t) sc) -> far_unit d sc -> settled (X t0) sc -> In q (fst sc) ->
  forall v, (v < 2 + d)%nat -> is_derive (fun t => pt_flux d cp cv nphi (X t) (snd sc) q v) t0 (mvec (nun d) (pt_jac d cp cv nphi (X t0) (snd sc) q) (fe_U nphi q V) v).
Proof.
  intros M L FU SE I v Hv. destruct sc as [qs [|b|inf| |]]; cbn [fst snd pt_flux pt_jac settled far_unit side_ok] in *.
  - assert (K := locally_singleton _ _ L q I). destruct (fe_moves d cp cv nphi D G q X t0 V M K) as (RH & S & MV).
    assert (W := wall_ok d cp cv (fun t => st (X t) q) t0 (fe_U nphi q V) _ 0 (fq_n q) (fun _ => 0) D RH ltac:(lra) S MV v Hv).
    apply is_derive_Reals in W.
    apply (der_ext (fun t => wall_flux d 0 (fq_n q) (fun _ => 0) (st (X t) q) v) _ _ _ ) with (3 := W).
    + intros t. apply (sym_is_wall d cp cv nphi D (X t) q v Hv).
    + rewrite nun_2. unfold wallJ. fold st. rewrite (sum_0 d) by (intros; ring). replace (0 - 0) with 0 by ring. reflexivity.
  - assert (L2 : locally t0 (fun t => good d cp cv nphi (X t) q)) by (revert L; apply filter_imp; intros t [_ Q]; apply Q; auto).
    assert (K := locally_singleton _ _ L2). destruct (fe_moves d cp cv nphi D G q X t0 V M K) as (RH & S & MV).
    assert (W := wall_ok d cp cv (fun t => st (X t) q) t0 (fe_U nphi q V) _ (wall_speed d b q) (fq_n q) (at_pt (sl_rot b) q) D RH ltac:(lra) S MV v Hv).
    apply is_derive_Reals in W.
    apply (der_near _ (fun t => wall_flux d (wall_speed d b q) (fq_n q) (at_pt (sl_rot b) q) (st (X t) q) v)).
    { revert L2. apply filter_imp. intros t Kt. apply (slip_is_wall d cp cv nphi D b (X t) q); auto.
      destruct (good_facts d cp cv nphi G (X t) q Kt) as (R & _). apply Rgt_not_eq; exact R. }
    eapply der_to; [|exact W]. rewrite nun_2. unfold wallJ. fold st.
    assert (SW := slip_speed_wall d cp cv nphi D b (X t0) q). fold st in SW. rewrite SW. f_equal. f_equal. f_equal.
    apply sum_ext. intros i Hi. f_equal. unfold uvec. revert i Hi. dims D; intros i Hi; (destruct i as [|[|[|]]]; [| | |]); try lia; reflexivity.
  - assert (L2 : locally t0 (fun t => good d cp cv nphi (X t) q)) by (revert L; apply filter_imp; intros t Q; apply Q; auto).
    destruct (SE q I) as [E|F].
    + apply (der_far_near d cp cv nphi D G X t0 V q (inf q) M L2 (FU q I)); rewrite nun_2; auto.
    + apply (der_far_out d cp cv nphi D G X t0 V q (inf q) M L2 (FU q I)); [exact F|rewrite nun_2; auto].
  - eapply der_to; [|apply der_const]. unfold mvec, mx0. symmetry. apply sum_0. intros; ring.
  - exfalso. exact (locally_singleton _ _ L).
Qed.
(** The matrix of the sides is the derivative of their residual along every family of flows: for symmetry
    and slip walls, also moving ones, and for far fields that are settled. *)
Theorem C186_derivative_partial sides X t0 V (f : R -> evec) (J : R -> emat) acc :
  moving X t0 V -> locally t0 (fun t => side_external_residual d cp cv nphi sides (X t) (ev0, acc) = Ok (f t, J t)) ->
  (forall sc, In sc sides -> far_unit d sc) -> (forall sc, In sc sides -> settled (X t0) sc) ->
  forall v a, (v < 2 + d)%nat -> is_derive (fun t => f t v a) t0 (emul d nphi (J t0) V v a - emul d nphi acc V v a).
Proof.
  intros M L FU SE v a Hv. assert (L0 := locally_singleton _ _ L).
  destruct (sides_sum d cp cv nphi D G sides (X t0) _ (f t0) (J t0) L0 FU) as (_ & _ & Q). cbn [fst snd] in Q.
  apply (der_near _ (fun t => tot (fun sc => side_f d cp cv nphi (X t) sc v a) sides)).
  { revert L. apply filter_imp. intros t Ht. destruct (sides_sum d cp cv nphi D G sides (X t) _ (f t) (J t) Ht FU) as (_ & F & _). rewrite F. cbn [fst]. unfold ev0. ring. }
  replace (emul d nphi (J t0) V v a - emul d nphi acc V v a) with (tot (fun sc => emul d nphi (side_j d cp cv nphi (X t0) sc) V v a) sides).
  2:{ rewrite (emul_ext d nphi (J t0) (fun v a v' a' => acc v a v' a' + tot (fun sc => side_j d cp cv nphi (X t0) sc v a v' a') sides)) by (intros; apply Q).
      rewrite emul_plus, emul_tot. ring. }
  apply (tot_der (fun sc t => side_f d cp cv nphi (X t) sc v a)). intros sc I.
  unfold side_j. rewrite emul_tot. unfold side_f. apply (tot_der (fun q t => adds (fq_w q) (fq_N q) (pt_flux d cp cv nphi (X t) (snd sc) q) v a)). intros q IQ.
  rewrite emul_side. unfold adds. apply der_scal, der_scal. apply (der_pt X t0 V sc q M); auto.
  revert L. apply filter_imp. intros t Ht. destruct (sides_sum d cp cv nphi D G sides (X t) _ (f t) (J t) Ht FU) as (OK & _). apply OK; auto.
Qed.
(** When a side can be evaluated. *)
Theorem C186_runs sides x acc : (forall sc, In sc sides -> far_unit d sc) ->
  (exists r, side_external_residual d cp cv nphi sides x acc = Ok r) <->
  (forall qs c, In (qs, c) sides -> c <> OtherSide /\ (forall b, c = SlipWall b -> sl_vel b <> None -> sl_rot b <> None) /\ (c <> DirichletSide -> physical d cp cv nphi x qs)).
Proof.
  intros FU. split.
  - intros ([f j] & H) qs c I. destruct (sides_sum d cp cv nphi D G sides x acc f j H FU) as (OK & _). assert (O := OK _ I). unfold side_ok in O. cbn [fst snd] in O.
    assert (GI : (forall q, In q qs -> good d cp cv nphi x q) -> physical d cp cv nphi x qs) by (intros Q q IQ; apply (good_iff d cp cv nphi G); auto).
    destruct c; (split; [congruence|]) || (exfalso; exact O); split; try (intros ? EQ; discriminate EQ).
    + intros _. apply GI; auto.
    + intros b' EQ NV NR. injection EQ as <-. apply (proj1 O). auto.
    + intros _. apply GI, O.
    + intros _. apply GI; auto.
    + congruence.
    + contradiction.
  - intros H. destruct (sides_run d cp cv nphi D G sides x acc) as (f & j & E); [|eauto].
    intros [qs c] I. split; [|apply (FU _ I)]. destruct (H qs c I) as (N & B & P). unfold side_ok. cbn [fst snd].
    assert (GI : c <> DirichletSide -> forall q, In q qs -> good d cp cv nphi x q) by (intros Q q IQ; apply (good_iff d cp cv nphi G); apply P; auto).
    destruct c; auto; try (apply GI; discriminate). split; [|apply GI; discriminate]. intros [NV NR]. apply (B b eq_refl NV NR).
Qed.
End C186.

Section C187.
Variables (d : nat) (cp cv : R) (nphi : nat).
Hypothesis D : valid_dim d.
Hypothesis G : 0 < cv < cp.
Let st := state_at d cp cv nphi.
Lemma far_one inf qs x f j : side_external_residual d cp cv nphi [(qs, FarField inf)] x (ev0, em0) = Ok (f, j) -> (forall q, In q qs -> unit_normal d (fq_n q)) ->
  (forall q, In q qs -> good d cp cv nphi x q) /\
  (forall v a, f v a = tot (fun q => fq_w q * (fq_N q a * far_flux d cp cv (fe_U nphi q x) (inf q) (st x q) (fq_n q) v)) qs) /\
  (forall v a v' a', j v a v' a' = tot (fun q => fq_w q * (fq_N q a * split_mat d outgoing (Efn d cp cv (st x q) (fq_n q)) v v' * fq_N q a')) qs).
Proof.
  intros H UN. assert (FU : forall sc, In sc [(qs, FarField inf)] -> far_unit d sc) by (intros sc [<-|[]]; exact UN).
  destruct (sides_sum d cp cv nphi D G _ x _ f j H FU) as (OK & F & Q).
  split; [|split].
  - exact (OK _ (or_introl eq_refl)).
  - intros v a. rewrite F. cbn [fst tot]. unfold side_f, ev0, adds. cbn [fst snd pt_flux]. fold st. ring.
  - intros v a v' a'. rewrite Q. cbn [snd tot]. unfold side_j, em0, addm. cbn [fst snd pt_jac]. fold st. ring.
Qed.
(** At the flow far away the far field takes the flux of the flow. *)
Theorem C187_consistent inf qs x f j : side_external_residual d cp cv nphi [(qs, FarField inf)] x (ev0, em0) = Ok (f, j) ->
  (forall q, In q qs -> unit_normal d (fq_n q)) -> (forall q v, In q qs -> (v < 2 + d)%nat -> inf q v = fe_U nphi q x v) ->
  forall v a, (v < 2 + d)%nat -> f v a = tot (fun q => fq_w q * (fq_N q a * through d (st x q) (fq_n q) v)) qs.
Proof.
  intros H UN E v a Hv. destruct (far_one inf qs x f j H UN) as (K & F & _). rewrite F. apply tot_ext. intros q I. f_equal. f_equal.
  apply (far_consistent d cp cv nphi D G x q (inf q) (K q I) (UN q I)); rewrite nun_2; auto.
Qed.
(** Where the flow leaves at the speed of sound or faster, the flow far away has no influence. *)
Theorem C187_outflow inf qs x f j : side_external_residual d cp cv nphi [(qs, FarField inf)] x (ev0, em0) = Ok (f, j) ->
  (forall q, In q qs -> unit_normal d (fq_n q)) -> (forall q, In q qs -> p_a (st x q) <= normal_speed d (st x q) (fq_n q)) ->
  forall v a, (v < 2 + d)%nat -> f v a = tot (fun q => fq_w q * (fq_N q a * through d (st x q) (fq_n q) v)) qs.
Proof.
  intros H UN E v a Hv. destruct (far_one inf qs x f j H UN) as (K & F & _). rewrite F. apply tot_ext. intros q I. f_equal. f_equal.
  assert (FF := far_form d cp cv nphi D G x q (inf q) (K q I) (UN q I) v ltac:(rewrite nun_2; exact Hv)). fold st in FF. rewrite FF.
  rewrite sum_0; [ring|]. intros k Hk. assert (Z := out_fast d cp cv nphi D G x q (K q I) (UN q I) (E q I) v k). fold st in Z. rewrite Z. ring.
Qed.
(** Where it enters so fast the matrix is zero, and the residual is the matrix along the normal of the flow
    inside times the flow far away. *)
Theorem C187_inflow inf qs x f j (AA : fpt -> nat -> mx) : side_external_residual d cp cv nphi [(qs, FarField inf)] x (ev0, em0) = Ok (f, j) ->
  (forall q, In q qs -> unit_normal d (fq_n q)) -> (forall q, In q qs -> normal_speed d (st x q) (fq_n q) <= - p_a (st x q)) ->
  (forall q c, In q qs -> (c < d)%nat -> adv_jac d c (cp - cv) cv (cp / cv) (st x q) = Ok (AA q c)) ->
  (forall v a, (v < 2 + d)%nat -> f v a = tot (fun q => fq_w q * (fq_N q a * mvec (2 + d) (along d (AA q) (fq_n q)) (inf q) v)) qs) /\
  (forall v a v' a', j v a v' a' = 0).
Proof.
  intros H UN E HA. destruct (far_one inf qs x f j H UN) as (K & F & Q).
  assert (Z : forall q i k, In q qs -> split_mat d outgoing (Efn d cp cv (st x q) (fq_n q)) i k = 0).
  { intros q i k I. apply (in_fast d cp cv nphi D G x q (K q I) (UN q I) (E q I)). }
  split.
  - intros v a Hv. rewrite F. apply tot_ext. intros q I. f_equal. f_equal. unfold far_flux.
    assert (Z0 : mvec (nun d) (split_mat d outgoing (Efn d cp cv (st x q) (fq_n q))) (fe_U nphi q x) v = 0).
    { unfold mvec. apply sum_0. intros k Hk. rewrite Z by auto. ring. }
    rewrite Z0. rewrite nun_2. unfold mvec. rewrite Rplus_0_r. apply sum_ext. intros k Hk. f_equal.
    assert (W := split_whole d cp cv nphi D G x q (K q I) (UN q I) v k ltac:(rewrite nun_2; auto) ltac:(rewrite nun_2; auto)). fold st in W. cbv zeta in W. fold st in W. rewrite Z in W by auto.
    rewrite Rplus_0_r in W. rewrite W. unfold along. apply sum_ext. intros c Hc. f_equal.
    assert (EA := HA q c I Hc). rewrite adv_jac_safe in EA by auto. injection EA as <-. reflexivity.
  - intros. rewrite Q. apply tot_0. intros q I. rewrite Z by auto. ring.
Qed.

(** ** A uniform flow is preserved *)
Lemma uni_U U q v : unity nphi q -> fe_U nphi q (uniform U) v = U v.
Proof. intros H. unfold fe_U, uniform. rewrite sum_scal_r. unfold unity in H. replace (sum nphi (fq_N q)) with 1 by (symmetry; exact H). ring. Qed.
Lemma uni_dU U q c v : flat d nphi q -> (c < d)%nat -> fe_dU nphi q (uniform U) c v = 0.
Proof. intros H Hc. unfold fe_dU, uniform. rewrite sum_scal_r. replace (sum nphi (fq_dN q c)) with 0 by (symmetry; exact (H c Hc)). ring. Qed.
(** Sides that go with the flow: far fields with this flow, and walls at rest along the flow. *)
Definition fitting (U : vec) (sc : list fpt * fside) : Prop :=
  match snd sc with
  | FarField inf => forall q, In q (fst sc) -> unit_normal d (fq_n q) /\ forall v, (v < 2 + d)%nat -> inf q v = U v
  | c => at_rest c /\ forall q, In q (fst sc) -> normal_speed d (prim_of d cp cv false U) (fq_n q) = 0
  end.
Lemma wall_through s n v : (v < 2 + d)%nat -> normal_speed d s n = 0 -> wall_flux d 0 n (fun _ => 0) s v = through d s n v.
Proof.
  unfold normal_speed. intros Hv H. revert v Hv. unfold through, wall_flux. cbv zeta.
  dims D; cbn [Nat.add]; below; cbn [sum vel euler Nat.eqb Nat.sub Nat.add] in *.
  all: unfold euler; cbn [vel Nat.eqb Nat.sub Nat.add sum] in *; cbn [Nat.eqb Nat.sub Nat.add].
  all: match goal with H : ?e = 0 |- ?l = ?r =>
         first [ replace r with (p_rho s * e) by ring; rewrite H; ring
               | replace r with ((p_rho s * p_e s + p_p s) * e) by ring; rewrite H; ring
               | replace r with (p_rho s * p_u1 s * e + p_p s * n 0%nat) by ring; rewrite H; ring
               | replace r with (p_rho s * p_u2 s * e + p_p s * n 1%nat) by ring; rewrite H; ring
               | replace r with (p_rho s * p_u3 s * e + p_p s * n 2%nat) by ring; rewrite H; ring ] end.
Qed.
(** On every mesh whose quadrature satisfies the divergence theorem for the shape functions, a uniform
    flow leaves no residual: the interior and the sides cancel in every equation, whatever the
    stabilisation and the shock capturing. *)
Theorem C187_free_stream tau_of shock qps sides U f1 j1 f3 j3 :
  internal_residual d cp cv nphi tau_of shock qps (uniform U) = Ok (f1, j1) ->
  side_external_residual d cp cv nphi sides (uniform U) (ev0, em0) = Ok (f3, j3) ->
  (forall q, In q qps -> unity nphi q /\ flat d nphi q) -> (forall sc q, In sc sides -> In q (fst sc) -> unity nphi q) ->
  (forall sc, In sc sides -> fitting U sc) ->
  (forall a c, (a < nphi)%nat -> (c < d)%nat ->
    tot (fun q => fq_w q * fq_dN q c a) qps = tot (fun sc => tot (fun q => fq_w q * (fq_N q a * fq_n q c)) (fst sc)) sides) ->
  forall v a, (v < 2 + d)%nat -> (a < nphi)%nat -> f1 v a + f3 v a = 0.
Proof.
  intros H1 H3 Q UN FI DT v a Hv Ha. set (s := prim_of d cp cv false U).
  assert (FU : forall sc, In sc sides -> far_unit d sc).
  { intros [qs c] I. assert (A := FI _ I). destruct c; cbn in *; auto. intros q IQ. apply A; auto. }
  destruct (internal_sum d cp cv nphi D G tau_of shock qps _ f1 j1 H1) as (_ & F1 & _).
  destruct (sides_sum d cp cv nphi D G sides _ _ f3 j3 H3 FU) as (OK & F3 & _).
  assert (PU : forall q, unity nphi q -> (forall c, (c < d)%nat -> vel (st (uniform U) q) c = vel s c) /\ p_rho (st (uniform U) q) = p_rho s /\ p_e (st (uniform U) q) = p_e s /\ p_p (st (uniform U) q) = p_p s).
  { intros q Hq. unfold st, state_at, s. assert (E := fun v => uni_U U q v Hq). split; [|repeat split].
    - intros c Hc. revert c Hc. dims D; intros c Hc; (destruct c as [|[|[|]]]; try lia); cbn; rewrite !E; reflexivity.
    - cbn. rewrite !E. reflexivity.
    - cbn. rewrite !E. reflexivity.
    - dims D; cbn; rewrite !E; reflexivity. }
  assert (EU : forall q c v, unity nphi q -> (c < d)%nat -> (v < 2 + d)%nat -> euler d c (st (uniform U) q) v = euler d c s v).
  { intros q c w Hq Hc Hw. destruct (PU q Hq) as (E1 & E2 & E3 & E4). unfold euler. rewrite E2, E3, E4, (E1 c Hc).
    destruct (Nat.eqb_spec w 0); auto. destruct (Nat.eqb_spec w (d + 1)); auto. rewrite (E1 (w - 1)%nat) by lia. reflexivity. }
  assert (I1 : f1 v a = - sum d (fun c => euler d c s v * tot (fun q => fq_w q * fq_dN q c a) qps)).
  { rewrite F1. rewrite (tot_ext _ (fun q => sum d (fun c => - (euler d c s v * (fq_w q * fq_dN q c a))))).
    - rewrite <- (tot_sum d (fun q c => - (euler d c s v * (fq_w q * fq_dN q c a)))). rewrite <- sum_opp. apply sum_ext. intros c Hc.
      rewrite <- tot_scal. replace (- tot (fun x => euler d c s v * (fq_w x * fq_dN x c a)) qps) with (-1 * tot (fun x => euler d c s v * (fq_w x * fq_dN x c a)) qps) by ring.
      rewrite <- tot_scal. apply tot_ext. intros. ring.
    - intros q I. destruct (Q q I) as [Q1 Q2]. unfold vol_f. rewrite (sum_0 (nun d)).
      + rewrite Rmult_0_r, Rplus_0_r. apply sum_ext. intros c Hc. rewrite uni_dU by auto. rewrite flux_euler by auto. fold st. rewrite EU by auto. ring.
      + intros i Hi. unfold res_at. rewrite (sum_0 d); [ring|]. intros c Hc. unfold mvec. apply sum_0. intros k Hk. rewrite uni_dU by auto. ring. }
  assert (I3 : f3 v a = sum d (fun c => euler d c s v * tot (fun sc => tot (fun q => fq_w q * (fq_N q a * fq_n q c)) (fst sc)) sides)).
  { rewrite F3. cbn [fst]. unfold ev0. rewrite Rplus_0_l. rewrite (tot_ext _ (fun sc => sum d (fun c => tot (fun q => euler d c s v * (fq_w q * (fq_N q a * fq_n q c))) (fst sc)))).
    - rewrite <- (tot_sum d (fun sc c => tot (fun q => euler d c s v * (fq_w q * (fq_N q a * fq_n q c))) (fst sc))). apply sum_ext. intros c Hc.
      rewrite <- tot_scal. apply tot_ext. intros. rewrite tot_scal. reflexivity.
    - intros sc I. rewrite (tot_sum d (fun q c => euler d c s v * (fq_w q * (fq_N q a * fq_n q c)))). unfold side_f. apply tot_ext. intros q IQ.
      assert (Uq := UN sc q I IQ).
      transitivity (fq_w q * (fq_N q a * through d (st (uniform U) q) (fq_n q) v)).
      + unfold adds. f_equal. f_equal. assert (FS := FI sc I). assert (OS := OK sc I).
        assert (NS : normal_speed d s (fq_n q) = 0 -> normal_speed d (st (uniform U) q) (fq_n q) = 0).
        { intros <-. unfold normal_speed. apply sum_ext. intros c Hc. destruct (PU q Uq) as (E1 & _). rewrite E1 by auto. reflexivity. }
        destruct sc as [qs [|b|inf| |]]; unfold fitting in FS; cbn [fst snd] in *; try (destruct FS as [[] _]; fail).
        * rewrite <- wall_through; auto. { exact (rest_flux d cp cv nphi D G (uniform U) (qs, SymmetryWall) q v IQ OS Logic.I Hv). } apply NS. apply FS; auto.
        * rewrite <- wall_through; auto. { exact (rest_flux d cp cv nphi D G (uniform U) (qs, SlipWall b) q v IQ OS (proj1 FS) Hv). } apply NS. apply FS; auto.
        * destruct (FS q IQ) as [A B]. apply (far_consistent d cp cv nphi D G (uniform U) q (inf q) (OS q IQ) A); rewrite nun_2; auto.
          intros w Hw. rewrite uni_U by auto. auto.
      + unfold through. rewrite <- !sum_scal_l. apply sum_ext. intros c Hc. rewrite EU by auto. ring. }
  rewrite I1, I3. rewrite (sum_ext d (fun c => euler d c s v * tot (fun q => fq_w q * fq_dN q c a) qps) (fun c => euler d c s v * tot (fun sc => tot (fun q => fq_w q * (fq_N q a * fq_n q c)) (fst sc)) sides)).
  - ring.
  - intros c Hc. rewrite DT by auto. reflexivity.
Qed.
End C187.

(** ** Concrete cases *)
(** The element of [q1] with a side at each end. *)
Definition qL : fpt := mkFpt 1 (fun a => match a with 0%nat => 1 | _ => 0 end) (fun _ _ => 0) (fun _ => -1) (fun _ => -1).
Definition qR : fpt := mkFpt 1 (fun a => match a with 0%nat => 0 | _ => 1 end) (fun _ _ => 0) (fun _ => 1) (fun _ => 1).
Definition U1 (t : R) : vec := fun v => match v with 0%nat => 1 + t | 1%nat => 1 | _ => 3 end.
Definition ends : list (list fpt * fside) := [([qL], FarField (fun _ => U1 0)); ([qR], FarField (fun _ => U1 0))].
Lemma unity_ends sc q : In sc ends -> In q (fst sc) -> unity 2 q /\ unit_normal 1 (fq_n q).
Proof. intros [<-|[<-|[]]] [<-|[]]; split; unfold unity, unit_normal; cbn; lra. Qed.
Lemma far_ends sc : In sc ends -> far_unit 1 sc.
Proof. intros I. assert (H := fun q => unity_ends sc q I). destruct I as [<-|[<-|[]]]; cbn; intros q IQ; apply H; exact IQ. Qed.
Lemma uni_physical qs t : (forall q, In q qs -> unity 2 q) -> -1/2 < t < 1/2 -> physical 1 2 1 2 (uniform (U1 t)) qs.
Proof.
  intros H Ht q I. unfold state_at. cbn [prim_of p_rho p_T]. rewrite !uni_U by auto. cbn. split; [lra|].
  replace ((3 / (1 + t) - 1 / 2 * (1 / (1 + t) * (1 / (1 + t)) + 0 * 0 + 0 * 0)) / 1) with ((6 * (1 + t) - 1) / (2 * ((1 + t) * (1 + t)))) by (field; lra).
  apply Rdiv_lt_0_compat; [lra|]. apply Rmult_lt_0_compat; [lra|]. apply Rmult_lt_0_compat; lra.
Qed.
Lemma ends_run t : -1/2 < t < 1/2 -> exists r, side_external_residual 1 2 1 2 ends (uniform (U1 t)) (ev0, em0) = Ok r.
Proof.
  intros Ht. apply C186_runs; [left; auto|lra|apply far_ends|]. intros qs c I.
  assert (UN : forall q, In q qs -> unity 2 q) by (intros q IQ; apply (unity_ends _ q I IQ)).
  split; [destruct I as [E|[E|[]]]; injection E as <- <-; discriminate|]. split; [destruct I as [E|[E|[]]]; injection E as <- <-; discriminate|].
  intros _. apply uni_physical; auto.
Qed.
Example C187_witness : (exists f j, internal_residual 1 2 1 2 (fun _ _ => mx0) None [q1] (uniform (U1 0)) = Ok (f, j)) /\
  (exists r, side_external_residual 1 2 1 2 ends (uniform (U1 0)) (ev0, em0) = Ok r) /\
  (forall sc, In sc ends -> fitting 1 2 1 (U1 0) sc) /\
  (forall a c, (a < 2)%nat -> (c < 1)%nat ->
    tot (fun q => fq_w q * fq_dN q c a) [q1] = tot (fun sc => tot (fun q => fq_w q * (fq_N q a * fq_n q c)) (fst sc)) ends).
Proof.
  split; [|split; [|split]].
  - apply C184_runs; [left; auto|lra|]. apply uni_physical; [intros q [<-|[]]; apply C184_witness|lra].
  - apply ends_run; lra.
  - intros sc I. assert (H := fun q => unity_ends sc q I). destruct I as [<-|[<-|[]]]; intros q IQ; (split; [apply H; exact IQ|reflexivity]).
  - intros a c Ha Hc. destruct a as [|[|a]]; [| |lia]; cbn; lra.
Qed.
Example C186_witness : let X t := uniform (U1 t) in let V : evec := fun v _ => match v with 0%nat => 1 | _ => 0 end in
  moving X 0 V /\ (exists (f : R -> evec) (J : R -> emat), locally 0 (fun t => side_external_residual 1 2 1 2 ends (X t) (ev0, em0) = Ok (f t, J t))) /\
  (forall sc, In sc ends -> far_unit 1 sc) /\ (forall sc, In sc ends -> settled 1 2 1 2 (X 0) sc).
Proof.
  intros X V. split; [|split; [|split]].
  - intros v a. unfold X, V, uniform, U1. destruct v as [|[|v]].
    + apply (der_ext (fun t => 1 + t) _ _ (0 + 1)); [reflexivity|ring|]. apply der_plus; [apply der_const|apply @is_derive_id].
    + apply der_const.
    + apply der_const.
  - set (run := fun t => match side_external_residual 1 2 1 2 ends (X t) (ev0, em0) with Ok r => r | Fault _ => (ev0, em0) end).
    exists (fun t => fst (run t)), (fun t => snd (run t)). exists (mkposreal (1/2) ltac:(lra)). intros t Ht. change (Rabs (t - 0) < 1/2) in Ht. apply Rabs_def2 in Ht.
    destruct (ends_run t ltac:(lra)) as ([f j] & E). unfold run, X. rewrite E. reflexivity.
  - apply far_ends.
  - intros sc I. assert (H := fun q => unity_ends sc q I). destruct I as [<-|[<-|[]]]; intros q IQ; left; intros v Hv; unfold X; (rewrite uni_U by (apply H; exact IQ)); reflexivity.
Qed.
(** Inflow faster than sound: the matrix is zero although the residual changes with the flow inside. *)
Definition qI : fpt := mkFpt 1 (fun _ => 1) (fun _ _ => 0) (fun _ => -1) (fun _ => 0).
Definition U2 (t : R) : vec := fun v => match v with 0%nat => 1 | 1%nat => 3 + t | _ => 6 end.
Definition inf2 : vec := fun v => match v with 0%nat => 1 | 1%nat => 2 | _ => 6 end.
Lemma U2_at t v : fe_U 1 qI (uniform (U2 t)) v = U2 t v.
Proof. apply uni_U. unfold unity. cbn. lra. Qed.
Lemma U2_good t : -1/10 < t < 1/10 -> physical 1 2 1 1 (uniform (U2 t)) [qI] /\ normal_speed 1 (state_at 1 2 1 1 (uniform (U2 t)) qI) (fq_n qI) <= - p_a (state_at 1 2 1 1 (uniform (U2 t)) qI).
Proof.
  intros Ht. assert (B : 29/10 * (29/10) < (3 + t) * (3 + t) < 31/10 * (31/10)).
  { split; apply Rmult_gt_0_lt_compat; lra. }
  split.
  - intros q [<-|[]]. unfold state_at. cbn [prim_of p_rho p_T]. rewrite !U2_at. cbn. split; lra.
  - unfold normal_speed, state_at. cbn [sum vel prim_of p_u1 p_a fq_n qI]. rewrite !U2_at. cbn [U2].
    cbn [Nat.ltb Nat.leb Nat.add U2].
    match goal with |- _ <= - sqrt ?z => assert (Z : sqrt z <= 3 + t) end.
    { apply Rle_trans with (sqrt ((3 + t) * (3 + t))); [apply sqrt_le_1_alt; cbn; lra|rewrite sqrt_square; lra]. }
    cbn in *. lra.
Qed.
Theorem C186_inflow_refuted : exists qs inf X V (f : R -> evec) (J : R -> emat) v a (df : R),
  moving X 0 V /\ locally 0 (fun t => side_external_residual 1 2 1 1 [(qs, FarField inf)] (X t) (ev0, em0) = Ok (f t, J t)) /\
  (forall q, In q qs -> unit_normal 1 (fq_n q)) /\
  (v < 3)%nat /\ (a < 1)%nat /\ is_derive (fun t => f t v a) 0 df /\ df <> emul 1 1 (J 0) V v a.
Proof.
  assert (D1 : valid_dim 1) by (left; auto). assert (G1 : 0 < 1 < 2) by lra.
  set (X := fun t => uniform (U2 t)). set (S := [([qI], FarField (fun _ => inf2))]).
  set (run := fun t => match side_external_residual 1 2 1 1 S (X t) (ev0, em0) with Ok r => r | Fault _ => (ev0, em0) end).
  assert (UN : forall q, In q [qI] -> unit_normal 1 (fq_n q)) by (intros q [<-|[]]; unfold unit_normal; cbn; lra).
  assert (NE : forall t, -1/10 < t < 1/10 -> side_external_residual 1 2 1 1 S (X t) (ev0, em0) = Ok (fst (run t), snd (run t))).
  { intros t Ht. destruct (proj2 (C186_runs 1 2 1 1 D1 G1 S (X t) (ev0, em0) ltac:(intros sc [<-|[]]; exact UN))) as ([f j] & E).
    - intros qs c [E|[]]. injection E as <- <-. split; [discriminate|]. split; [discriminate|]. intros _. apply U2_good; auto.
    - unfold run. rewrite E. reflexivity. }
  assert (NB : locally 0 (fun t => -1/10 < t < 1/10)).
  { exists (mkposreal (1/10) ltac:(lra)). intros t Ht. change (Rabs (t - 0) < 1/10) in Ht. apply Rabs_def2 in Ht. lra. }
  set (AA := fun t (q : fpt) c => Afn 1 2 1 (state_at 1 2 1 1 (X t) q) c).
  assert (VA : forall t, -1/10 < t < 1/10 -> fst (run t) 1%nat 0%nat = (3 + t) * (3 + t) / 2 - 2 * (3 + t) - 6 /\ forall v a v' a', snd (run t) v a v' a' = 0).
  { intros t Ht. destruct (C187_inflow 1 2 1 1 D1 G1 (fun _ => inf2) [qI] (X t) _ _ (AA t) (NE t Ht) UN) as (F & Z).
    - intros q [<-|[]]. apply U2_good; auto.
    - intros q c I Hc. apply adv_jac_safe; auto.
    - split; auto. rewrite F by lia. cbn [tot]. unfold mvec, along, AA, Afn. cbn [sum Nat.add].
      assert (ST : p_u1 (state_at 1 2 1 1 (X t) qI) = (3 + t) / 1 /\ p_k (state_at 1 2 1 1 (X t) qI) = 1/2 * ((3 + t) / 1 * ((3 + t) / 1) + 0 * 0 + 0 * 0)).
      { unfold state_at, X. cbn [prim_of p_u1 p_k]. rewrite !U2_at. cbn. split; reflexivity. }
      ev. rewrite (proj1 ST), (proj2 ST). cbn [fq_w fq_N fq_n qI inf2]. field. }
  exists [qI], (fun _ => inf2), X, (fun v _ => match v with 1%nat => 1 | _ => 0 end), (fun t => fst (run t)), (fun t => snd (run t)), 1%nat, 0%nat, 1.
  split; [|split; [|split; [|split; [lia|split; [lia|split]]]]].
  - intros v a. unfold X, uniform, U2. destruct v as [|[|v]].
    + apply der_const.
    + apply (der_ext (fun t => 3 + t) _ _ (0 + 1)); [reflexivity|ring|]. apply der_plus; [apply der_const|apply @is_derive_id].
    + apply der_const.
  - revert NB. apply filter_imp. exact NE.
  - exact UN.
  - apply (der_near _ (fun t => (3 + t) * (3 + t) / 2 - 2 * (3 + t) - 6)).
    { revert NB. apply filter_imp. intros t Ht. apply VA; auto. }
    auto_derive; auto. lra.
  - unfold emul. cbn [sum nun Nat.add]. destruct (VA 0 ltac:(lra)) as [_ Z]. rewrite !Z. lra.
Qed.
Print Assumptions C186_derivative_partial.
Print Assumptions C186_inflow_refuted.
Print Assumptions C187_outflow.
Print Assumptions C187_inflow.
Print Assumptions C187_free_stream.
