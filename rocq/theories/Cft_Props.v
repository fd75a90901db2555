(** C238, C239: the linearised sides of the flow element, and the element operations of a flow in time. *)
From Coq Require Import Reals.
From Coquelicot Require Import Coquelicot.
From Coq Require Import List Arith Bool Lra Lia FunctionalExtensionality.
From Verif Require Import Base BaseLemmas RBool Stre_Proofs Stre_Proofs2 Flui_Model Flui_Spec Flui_Proofs Flui_Proofs2 Flui_Proofs3 Flui_Proofs5 Flui_Proofs6 Flui_Props Heat_Proofs Sens_Proofs2 Cfe_Model Cfe_Spec Cfe_Proofs Cfe_Proofs2 Cfe_Proofs3 Cfe_Proofs4 Cfe_Proofs5 Cfe_Props Cfe_Props2 Cfe_Props3.
From Verif Require Import Fdf_Model Cft_Model Cft_Spec.
Import ListNotations.
Open Scope R_scope.

Lemma der_is (f : R -> R) (x a b : R) : a = b -> is_derive f x a -> is_derive f x b.
Proof. intros <-. auto. Qed.
Section Over1.
Context {X : Type} (step : X -> evec -> outcome evec) (ff : X -> evec) (ok : X -> Prop).
Hypothesis RUN : forall x f, ok x -> exists g, step x f = Ok g /\ forall v a, g v a = f v a + ff x v a.
Lemma over1 l : forall f, (forall x, In x l -> ok x) -> exists g, over step l f = Ok g /\ forall v a, g v a = f v a + tot (fun x => ff x v a) l.
Proof.
  induction l as [|x l IH]; intros f H; cbn [over tot].
  - exists f. split; [reflexivity|]. intros; ring.
  - destruct (RUN x f (H x (or_introl eq_refl))) as (g1 & E1 & Q1). rewrite E1. cbn [bind].
    destruct (IH g1 (fun y I => H y (or_intror I))) as (g & E & Q). exists g. split; [exact E|]. intros. rewrite Q, Q1. ring.
Qed.
End Over1.

Section C238.
Variables (d : nat) (cp cv : R) (nphi : nat).
Hypothesis D : valid_dim d.
Hypothesis G : 0 < cv < cp.
Let st := state_at d cp cv nphi.
Notation mul := (emul d nphi).

Definition lin_flux (b : slip) (mo : motion) (x dx : evec) (q : fpt) : vec :=
  let s := st x q in
  let ds := pert_of d cp cv false s (fe_U nphi q dx) in
  let ni := pad d (fq_n q) in
  let Dw := moved_by (sl_vel b) (mo_vel mo) q in
  let Dn := moved_by (sl_rot b) (mo_rot mo) q in
  let Dun := dot3 Dw (fun i => ni i + at_pt (sl_rot b) q i) + dot3 (at_pt (sl_vel b) q) Dn - dot3 (uvec d s) Dn - dot3 (duvec d ds) (at_pt (sl_rot b) q) in
  fun v => slip_speed d b q s * fe_U nphi q dx v + (if Nat.eqb v (d + 1) then slip_speed d b q s * d_p ds else 0)
         + Dun * fe_U nphi q x v + (if Nat.eqb v (d + 1) then Dun * p_p s else 0)
         + (if (Nat.ltb 0 v && Nat.leb v d)%bool then d_p ds * ni (v - 1)%nat else 0).
Lemma lin_slip_ok b mo x dx q f : good d cp cv nphi x q -> exists g, lin_slip_step d cp cv nphi b mo x dx q f = Ok g /\
  forall v a, g v a = f v a + adds (fq_w q) (fq_N q) (lin_flux b mo x dx q) v a.
Proof. intros K. unfold lin_slip_step. rewrite K. cbn [bind]. eexists. split; [reflexivity|]. reflexivity. Qed.

Lemma dot3_der (f g : R -> vec) df dg t0 : (forall i, (i < 3)%nat -> is_derive (fun t => f t i) t0 (df i)) ->
  (forall i, (i < 3)%nat -> is_derive (fun t => g t i) t0 (dg i)) -> is_derive (fun t => dot3 (f t) (g t)) t0 (dot3 df (g t0) + dot3 (f t0) dg).
Proof.
  intros F H. unfold dot3. cbn [sum].
  assert (P : forall i, (i < 3)%nat -> is_derive (fun t => f t i * g t i) t0 (df i * g t0 i + f t0 i * dg i)) by (intros i Hi; apply (der_mult (fun t => f t i) (fun t => g t i)); auto).
  assert (Q := der_plus _ _ _ _ _ (der_plus _ _ _ _ _ (der_plus _ _ _ _ _ (der_const 0 t0) (P 0%nat ltac:(lia))) (P 1%nat ltac:(lia))) (P 2%nat ltac:(lia))).
  eapply der_is; [|exact Q]. cbn. ring.
Qed.
Lemma der_wall b mo X t0 V q v : moving X t0 V -> good d cp cv nphi (X t0) q -> wall_moves b t0 mo ->
  is_derive (fun t => slip_flux d (b t) q (fe_U nphi q (X t)) (st (X t) q) v) t0 (lin_flux (b t0) mo (X t0) V q v).
Proof.
  intros M K W.
  pose proof (perturbation_is_derivative_partial d cp cv false (fun t => fe_U nphi q (X t)) t0 (fe_U nphi q V) (st (X t0) q) D G (fe_follows nphi q X t0 V M) K) as H.
  cbv zeta in H. destruct H as (_ & H1 & H2 & H3 & _ & _ & _ & HP & _).
  apply is_derive_Reals in H1. apply is_derive_Reals in H2. apply is_derive_Reals in H3. apply is_derive_Reals in HP.
  set (ds := pert_of d cp cv false (st (X t0) q) (fe_U nphi q V)) in *.
  assert (HU : forall i, (i < 3)%nat -> is_derive (fun t => uvec d (st (X t) q) i) t0 (duvec d ds i)).
  { intros i Hi. destruct i as [|[|[|]]]; [exact H1| | |lia]; cbn [uvec duvec]; destruct (Nat.ltb _ d); try apply der_const; [exact H2|exact H3]. }
  assert (HN : forall i, (i < 3)%nat -> is_derive (fun t => at_pt (sl_rot (b t)) q i) t0 (moved_by (sl_rot (b t0)) (mo_rot mo) q i)) by (intros; apply W).
  assert (HW : forall i, (i < 3)%nat -> is_derive (fun t => at_pt (sl_vel (b t)) q i) t0 (moved_by (sl_vel (b t0)) (mo_vel mo) q i)) by (intros; apply W).
  assert (HM : forall i, (i < 3)%nat -> is_derive (fun t => pad d (fq_n q) i + at_pt (sl_rot (b t)) q i) t0 (moved_by (sl_rot (b t0)) (mo_rot mo) q i)).
  { intros i Hi. eapply der_is; [|apply der_plus; [apply der_const|apply HN; auto]]. ring. }
  assert (A1 := dot3_der (fun t => at_pt (sl_vel (b t)) q) (fun t i => pad d (fq_n q) i + at_pt (sl_rot (b t)) q i) _ _ t0 HW HM).
  assert (A2 := dot3_der (fun t => uvec d (st (X t) q)) (fun t => at_pt (sl_rot (b t)) q) _ _ t0 HU HN).
  assert (RS := der_minus _ _ _ _ _ A1 A2). cbv beta in RS.
  change (is_derive (fun t => slip_speed d (b t) q (st (X t) q)) t0 
    (dot3 (moved_by (sl_vel (b t0)) (mo_vel mo) q) (fun i => pad d (fq_n q) i + at_pt (sl_rot (b t0)) q i) + dot3 (at_pt (sl_vel (b t0)) q) (moved_by (sl_rot (b t0)) (mo_rot mo) q) -
     (dot3 (duvec d ds) (at_pt (sl_rot (b t0)) q) + dot3 (uvec d (st (X t0) q)) (moved_by (sl_rot (b t0)) (mo_rot mo) q)))) in RS.
  set (dun := _ - _) in RS.
  assert (FU := der_fe_U nphi q X t0 V v M).
  assert (M1 := der_mult _ _ _ _ _ RS FU). cbv beta in M1.
  assert (M2 : is_derive (fun t => if Nat.eqb v (d + 1) then slip_speed d (b t) q (st (X t) q) * p_p (st (X t) q) else 0) t0
    (if Nat.eqb v (d + 1) then dun * p_p (st (X t0) q) + slip_speed d (b t0) q (st (X t0) q) * d_p ds else 0)).
  { destruct (Nat.eqb v (d + 1)); [|apply der_const]. apply (der_mult (fun t => slip_speed d (b t) q (st (X t) q)) (fun t => p_p (st (X t) q))); [exact RS|exact HP]. }
  assert (M3 : is_derive (fun t => if (Nat.ltb 0 v && Nat.leb v d)%bool then p_p (st (X t) q) * pad d (fq_n q) (v - 1)%nat else 0) t0
    (if (Nat.ltb 0 v && Nat.leb v d)%bool then d_p ds * pad d (fq_n q) (v - 1)%nat else 0)).
  { destruct (Nat.ltb 0 v && Nat.leb v d)%bool; [|apply der_const].
    eapply der_is; [|apply (der_mult (fun t => p_p (st (X t) q)) (fun _ => pad d (fq_n q) (v - 1)%nat)); [exact HP|apply der_const]]. cbv beta. ring. }
  assert (ALL := der_plus _ _ _ _ _ (der_plus _ _ _ _ _ M1 M2) M3).
  eapply der_is; [|exact ALL]. unfold lin_flux. fold ds. cbv zeta. subst dun.
  destruct (Nat.eqb v (d + 1)), (Nat.ltb 0 v && Nat.leb v d)%bool; ring.
Qed.

(** what a side adds to the linearised residual *)
Definition lin_part (x dx : evec) (sc : list fpt * fside * motion) : evec := fun v a =>
  match snd (fst sc) with
  | SlipWall b => tot (fun q => adds (fq_w q) (fq_N q) (lin_flux b (snd sc) x dx q) v a) (fst (fst sc))
  | _ => mul (side_j d cp cv nphi x (fst sc)) dx v a
  end.
Lemma lin_side_ok x dx sc f : side_ok d cp cv nphi x (fst sc) /\ far_unit d (fst sc) -> exists g, lin_side_step d cp cv nphi x dx sc f = Ok g /\
  forall v a, g v a = f v a + lin_part x dx sc v a.
Proof.
  destruct sc as [[qs c] mo]; cbn [fst snd]. intros K. destruct (side_step_ok d cp cv nphi D G x (qs, c) (ev0, em0) K) as (f1 & j1 & E & _ & Q). cbn [snd] in Q.
  assert (EM : forall v a, mul j1 dx v a = mul (side_j d cp cv nphi x (qs, c)) dx v a).
  { intros. apply emul_ext. intros. rewrite Q. unfold em0. ring. }
  unfold lin_side_step, lin_part; cbn [fst snd]. destruct c as [|b|inf| |]; unfold side_step in E; cbn [fst snd] in E.
  - rewrite E. cbn [bind snd]. eexists. split; [reflexivity|]. intros. unfold ev_plus. rewrite EM. reflexivity.
  - destruct K as [[N K] _]. cbn [fst snd] in *.
    assert (EQ : lin_slip_side d cp cv nphi b mo x dx qs f = over (lin_slip_step d cp cv nphi b mo x dx) qs f).
    { unfold lin_slip_side. destruct (sl_vel b) eqn:EV; destruct (sl_rot b) eqn:ER; auto. exfalso. apply N. split; congruence. }
    rewrite EQ. apply (over1 _ (fun q => adds (fq_w q) (fq_N q) (lin_flux b mo x dx q)) (good d cp cv nphi x)); auto. intros; apply lin_slip_ok; auto.
  - rewrite E. cbn [bind snd]. eexists. split; [reflexivity|]. intros. unfold ev_plus. rewrite EM. reflexivity.
  - exists f. split; [reflexivity|]. intros. rewrite <- EM. injection E as <- <-. unfold emul, em0. rewrite sum_0; [ring|]. intros; apply sum_0; intros; ring.
  - destruct K as [[] _].
Qed.
Lemma lin_sides_ok x dx sides f : (forall sc, In sc sides -> side_ok d cp cv nphi x (fst sc) /\ far_unit d (fst sc)) ->
  exists g, lin_sides d cp cv nphi sides x dx f = Ok g /\ forall v a, g v a = f v a + tot (fun sc => lin_part x dx sc v a) sides.
Proof. intros H. unfold lin_sides. apply (over1 _ (lin_part x dx) (fun sc => side_ok d cp cv nphi x (fst sc) /\ far_unit d (fst sc))); auto. intros; apply lin_side_ok; auto. Qed.

Lemma tot_map {X Y} (h : X -> Y) (f : Y -> R) l : tot f (map h l) = tot (fun x => f (h x)) l.
Proof. induction l; cbn; congruence. Qed.
(** The linearised residual of the sides is the derivative of their residual when the flow and the walls move together. *)
Theorem C238_sides : forall (sides : list mside) X t0 V (f : R -> evec) (J : R -> emat), moving X t0 V ->
  (forall s, In s sides -> side_moves (snd (fst s)) t0 (snd s)) ->
  locally t0 (fun t => side_external_residual d cp cv nphi (sides_at sides t) (X t) (ev0, em0) = Ok (f t, J t)) ->
  (forall sc, In sc (sides_at sides t0) -> far_unit d sc /\ settled d cp cv nphi (X t0) sc) ->
  forall acc, exists g, lin_sides d cp cv nphi (lin_at sides t0) (X t0) V acc = Ok g /\
    forall v a, (v < 2 + d)%nat -> is_derive (fun t => f t v a) t0 (g v a - acc v a).
Proof.
  intros sides X t0 V f J M SM L FS acc.
  assert (FU : forall t sc, In sc (sides_at sides t) -> far_unit d sc).
  { intros t sc I. unfold sides_at in I. apply in_map_iff in I. destruct I as (s & <- & Is).
    assert (Q := proj1 (FS _ (in_map (fun s => (fst (fst s), snd (fst s) t0)) _ _ Is))). unfold far_unit in *. cbn [fst snd] in *.
    destruct (SM s Is) as [(b & E & _)|(E & _)]; [rewrite E; exact I|]. now rewrite (E t). }
  assert (OK : locally t0 (fun t => forall s, In s sides -> side_ok d cp cv nphi (X t) (fst (fst s), snd (fst s) t))).
  { revert L. apply filter_imp. intros t Ht s Is. destruct (sides_sum d cp cv nphi D G _ (X t) _ _ _ Ht (FU t)) as (Q & _).
    apply Q. exact (in_map (fun s => (fst (fst s), snd (fst s) t)) _ _ Is). }
  destruct (lin_sides_ok (X t0) V (lin_at sides t0) acc) as (g & E & Q).
  { intros sc I. unfold lin_at in I. apply in_map_iff in I. destruct I as (s & <- & Is). cbn [fst].
    split; [apply (locally_singleton _ _ OK s Is)|apply (FU t0), (in_map (fun s => (fst (fst s), snd (fst s) t0)) _ _ Is)]. }
  exists g. split; [exact E|]. intros v a Hv. rewrite Q.
  apply (der_near _ (fun t => tot (fun s => side_f d cp cv nphi (X t) (fst (fst s), snd (fst s) t) v a) sides)).
  { revert L. apply filter_imp. intros t Ht. destruct (sides_sum d cp cv nphi D G _ (X t) _ _ _ Ht (FU t)) as (_ & F & _). rewrite F. cbn [fst]. unfold ev0, sides_at. rewrite tot_map. ring. }
  unfold lin_at. rewrite tot_map. eapply der_is; [|apply (tot_der (fun s t => side_f d cp cv nphi (X t) (fst (fst s), snd (fst s) t) v a) (fun s => lin_part (X t0) V (fst (fst s), snd (fst s) t0, snd s) v a))]; [ring|].
  intros s Is.
  assert (OS : locally t0 (fun t => side_ok d cp cv nphi (X t) (fst (fst s), snd (fst s) t))) by (revert OK; apply filter_imp; intros t Ht; apply Ht; auto).
  destruct (FS _ (in_map (fun s => (fst (fst s), snd (fst s) t0)) _ _ Is)) as [F1 F2].
  destruct s as [[qs c] mo]; cbn [fst snd] in *. unfold side_f; cbn [fst snd].
  destruct (SM _ Is) as [(b & Eb & W)|(Ec & Nb)]; cbn [fst snd] in *.
  - unfold lin_part; cbn [fst snd]. rewrite Eb.
    apply (tot_der (fun q t => adds (fq_w q) (fq_N q) (pt_flux d cp cv nphi (X t) (c t) q) v a)). intros q Iq. unfold adds. apply der_scal, der_scal.
    apply (der_ext (fun t => slip_flux d (b t) q (fe_U nphi q (X t)) (st (X t) q) v) _ _ (lin_flux (b t0) mo (X t0) V q v)); [intros t; rewrite Eb; reflexivity|reflexivity|].
    apply der_wall; auto. assert (O1 := locally_singleton _ _ OS). cbv beta in O1. rewrite Eb in O1. apply (proj2 O1). exact Iq.
  - assert (EP : lin_part (X t0) V (qs, c t0, mo) v a = mul (side_j d cp cv nphi (X t0) (qs, c t0)) V v a).
    { unfold lin_part; cbn [fst snd]. destruct (c t0) eqn:EC; auto. exfalso. exact (Nb b eq_refl). }
    rewrite EP. unfold side_j. rewrite emul_tot. cbn [fst snd].
    apply (tot_der (fun q t => adds (fq_w q) (fq_N q) (pt_flux d cp cv nphi (X t) (c t) q) v a)). intros q Iq. rewrite emul_side. unfold adds. apply der_scal, der_scal.
    apply (der_ext (fun t => pt_flux d cp cv nphi (X t) (c t0) q v) _ _ (mvec (nun d) (pt_jac d cp cv nphi (X t0) (c t0) q) (fe_U nphi q V) v)); [intros t; now rewrite (Ec t)|reflexivity|].
    apply (der_pt d cp cv nphi D G X t0 V (qs, c t0) q M); auto. revert OS. apply filter_imp. intros t. now rewrite (Ec t).
Qed.

(** If no wall moves, the linearised residual is the matrix of the sides times the perturbation. *)
Lemma near_pos (f : R -> R) (x l : R) : is_derive f x l -> 0 < f x -> locally x (fun t => 0 < f t).
Proof.
  intros H P. assert (C : continuous f x) by (apply (ex_derive_continuous f x); exists l; exact H).
  apply (C (fun u => 0 < u)). apply (open_gt 0). exact P.
Qed.
Lemma straight x dx : moving (fun t v a => x v a + t * dx v a) 0 dx.
Proof.
  intros v a. eapply der_is; [|apply der_plus; [apply der_const|apply (der_mult (fun t => t) (fun _ => dx v a)); [apply @is_derive_id|apply der_const]]].
  cbv beta. unfold one; cbn. ring.
Qed.
Lemma near_good x dx q : good d cp cv nphi x q -> locally 0 (fun t => good d cp cv nphi (fun v a => x v a + t * dx v a) q).
Proof.
  intros K. set (X := fun (t : R) v a => x v a + t * dx v a).
  assert (X0 : X 0 = x) by (apply functional_extensionality; intros v; apply functional_extensionality; intros a; unfold X; ring).
  assert (K0 := K). rewrite <- X0 in K.
  pose proof (perturbation_is_derivative_partial d cp cv false (fun t => fe_U nphi q (X t)) 0 (fe_U nphi q dx) (st (X 0) q) D G (fe_follows nphi q X 0 dx (straight x dx)) K) as H.
  cbv zeta in H. destruct H as (H1 & _ & _ & _ & _ & _ & HT & _).
  apply is_derive_Reals in H1. apply is_derive_Reals in HT.
  apply (good_iff d cp cv nphi G) in K. destruct K as [P1 P2].
  assert (A := near_pos _ _ _ H1 P1). assert (B := near_pos _ _ _ HT P2).
  generalize (filter_and _ _ A B). apply filter_imp. intros t [Q1 Q2]. apply (good_iff d cp cv nphi G). split; [exact Q1|exact Q2].
Qed.
Lemma still_flux b mo x dx q v : good d cp cv nphi x q -> ~ (sl_vel b <> None /\ sl_rot b = None) -> at_standstill mo -> (v < 2 + d)%nat ->
  lin_flux b mo x dx q v = mvec (nun d) (pt_jac d cp cv nphi x (SlipWall b) q) (fe_U nphi q dx) v.
Proof.
  intros K NB [S1 S2] Hv. set (X := fun (t : R) v a => x v a + t * dx v a).
  assert (X0 : X 0 = x) by (apply functional_extensionality; intros w; apply functional_extensionality; intros a; unfold X; ring).
  assert (L : locally 0 (fun t => side_ok d cp cv nphi (X t) ([q], SlipWall b))).
  { generalize (near_good x dx q K). apply filter_imp. intros t Ht. split; [exact NB|]. intros q' [<-|[]]. exact Ht. }
  assert (E1 := der_pt d cp cv nphi D G X 0 dx ([q], SlipWall b) q (straight x dx) L I I (or_introl eq_refl) v Hv). cbn [snd pt_flux] in E1.
  assert (W : wall_moves (fun _ => b) 0 mo).
  { intros q' i. unfold moved_by. split.
    - destruct (sl_vel b); [rewrite S1|]; apply der_const.
    - destruct (sl_rot b); [rewrite S2|]; apply der_const. }
  assert (K' : good d cp cv nphi (X 0) q) by (rewrite X0; exact K).
  assert (E2 := der_wall (fun _ => b) mo X 0 dx q v (straight x dx) K' W). cbv beta in E2. rewrite X0 in E1, E2.
  apply is_derive_unique in E1. apply is_derive_unique in E2. rewrite <- E1, <- E2. reflexivity.
Qed.
Lemma still_part x dx sc v a : side_ok d cp cv nphi x (fst sc) -> (forall b, snd (fst sc) = SlipWall b -> at_standstill (snd sc)) -> (v < 2 + d)%nat ->
  lin_part x dx sc v a = mul (side_j d cp cv nphi x (fst sc)) dx v a.
Proof.
  intros K S Hv. unfold lin_part. destruct sc as [[qs c] mo]; cbn [fst snd] in *. destruct c as [|b|inf| |]; auto.
  unfold side_j. rewrite emul_tot. cbn [fst snd]. apply tot_ext. intros q Iq. rewrite emul_side. unfold adds. f_equal. f_equal.
  destruct K as [NB K]. apply still_flux; auto. apply (S b eq_refl).
Qed.
Theorem C238_still : forall sides x dx f j acc,
  side_external_residual d cp cv nphi (map fst sides) x (ev0, em0) = Ok (f, j) -> (forall sc, In sc sides -> far_unit d (fst sc)) ->
  (forall qs b mo, In (qs, SlipWall b, mo) sides -> at_standstill mo) ->
  exists g, lin_sides d cp cv nphi sides x dx acc = Ok g /\ forall v a, (v < 2 + d)%nat -> g v a = acc v a + mul j dx v a.
Proof.
  intros sides x dx f j acc H FU S.
  assert (FU' : forall sc, In sc (map fst sides) -> far_unit d sc) by (intros sc I; apply in_map_iff in I; destruct I as (s & <- & Is); auto).
  destruct (sides_sum d cp cv nphi D G _ x _ f j H FU') as (OK & _ & Q). cbn [snd] in Q.
  assert (OK' : forall sc, In sc sides -> side_ok d cp cv nphi x (fst sc)) by (intros sc I; apply OK; exact (in_map fst _ _ I)).
  destruct (lin_sides_ok x dx sides acc) as (g & E & B); [intros; split; auto|]. exists g. split; [exact E|]. intros v a Hv. rewrite B. f_equal.
  rewrite (emul_ext d nphi j (fun v a v' a' => tot (fun sc => side_j d cp cv nphi x sc v a v' a') (map fst sides))) by (intros; rewrite Q; unfold em0; ring).
  rewrite emul_tot, tot_map. apply tot_ext. intros sc I. apply still_part; auto. intros b Eb. destruct sc as [[qs c] mo]; cbn in Eb; subst c. eapply S; eauto.
Qed.
(** A wall with a velocity and no rotation is refused, as in the residual. *)
Theorem C238_refused : forall b mo x dx qps f h, sl_vel b = Some h -> sl_rot b = None -> lin_slip_side d cp cv nphi b mo x dx qps f = Fault AssertFailed.
Proof. intros b mo x dx qps f h E1 E2. unfold lin_slip_side. rewrite E1, E2. reflexivity. Qed.

Section C239.
Variables (tau_of : fpt -> prim -> mx) (shock : option (fpt -> evec -> vec)) (qps : list fpt).
Notation calc := (fluid_calc d cp cv nphi tau_of shock qps).
Notation product := (fluid_product d cp cv nphi tau_of shock qps).
Lemma calc_inv sides asked x xd fm fx md mj jx : calc sides asked x xd = Ok (fm, fx, md, mj, jx) -> (forall sc, In sc sides -> far_unit d (fst sc)) ->
  exists f1 j1 f2 j2 md', internal_residual d cp cv nphi tau_of shock qps x = Ok (f1, j1) /\
    side_external_residual d cp cv nphi (map fst sides) x (ev0, em0) = Ok (f2, j2) /\
    velocity_residual d cp cv nphi tau_of qps x xd = Ok (fm, md', em0) /\ (forall v a, fx v a = f1 v a + f2 v a) /\ mj = em0 /\
    (asked = true -> md = md' /\ forall v a v' a', jx v a v' a' = j1 v a v' a' + j2 v a v' a').
Proof.
  unfold fluid_calc. intros H FU.
  assert (FU' : forall sc, In sc (map fst sides) -> far_unit d sc) by (intros sc I; apply in_map_iff in I; destruct I as (s & <- & Is); auto).
  destruct (internal_residual _ _ _ _ _ _ _ _) as [[f1 j1]|] eqn:E1; [|discriminate]. cbn [bind] in H.
  destruct (side_external_residual _ _ _ _ _ _ _) as [[f3 j3]|] eqn:E3; [|discriminate]. cbn [bind] in H.
  destruct (velocity_residual _ _ _ _ _ _ _ _) as [[[fm' md'] mj']|] eqn:E2; [|discriminate]. cbn [bind fst snd] in H. injection H as <- <- <- <- <-.
  destruct (sides_sum d cp cv nphi D G _ x _ f3 j3 E3 FU') as (OK & F & Q). cbn [fst snd] in F, Q.
  destruct (over_run (side_step d cp cv nphi x) (side_f d cp cv nphi x) (side_j d cp cv nphi x) (fun sc => side_ok d cp cv nphi x sc /\ far_unit d sc)) with (l := map fst sides) (acc := (ev0, em0)) as (f2 & j2 & E & F2 & Q2).
  { intros sc a K. apply side_step_ok; auto. } { intros sc I. split; auto. }
  assert (Z : mj' = em0) by (eapply C185_rate_frozen; eauto). subst mj'.
  exists f1, j1, f2, j2, md'. split; [reflexivity|]. split; [exact E|]. split; [reflexivity|]. split; [intros; rewrite F, F2; cbn [fst]; unfold ev0; ring|].
  split; [destruct asked; reflexivity|]. intros ->. split; [reflexivity|]. intros. rewrite Q, Q2. cbn [snd]. unfold em0. ring.
Qed.
(** The equations of a time step conserve mass and energy, and change the momentum by the pressure on the walls. *)
Theorem C239_balance : forall sides asked x xd fm fx md mj jx, calc sides asked x xd = Ok (fm, fx, md, mj, jx) ->
  (forall q, In q qps -> unity nphi q /\ flat d nphi q) ->
  (forall sc, In sc sides -> at_rest (snd (fst sc))) -> (forall sc q, In sc sides -> In q (fst (fst sc)) -> unity nphi q) ->
  (forall v a, (v < 2 + d)%nat -> (a < nphi)%nat -> fm v a + fx v a = 0) ->
  tot (fun q => fq_w q * fe_U nphi q xd 0%nat) qps = 0 /\ tot (fun q => fq_w q * fe_U nphi q xd (d + 1)%nat) qps = 0 /\
  forall i, (i < d)%nat -> tot (fun q => fq_w q * fe_U nphi q xd (S i)) qps = - tot (fun sc => tot (fun q => fq_w q * (p_p (st x q) * fq_n q i)) (fst (fst sc))) sides.
Proof.
  intros sides asked x xd fm fx md mj jx H Q AR UN EQ.
  assert (FU : forall sc, In sc sides -> far_unit d (fst sc)).
  { intros [[qs c] mo] I. assert (A := AR _ I). destruct c; cbn in *; auto; contradiction. }
  destruct (calc_inv sides asked x xd fm fx md mj jx H FU) as (f1 & j1 & f2 & j2 & md' & E1 & E2 & E3 & F & _).
  destruct (C184_balance d cp cv nphi D G tau_of shock qps (map fst sides) x xd f1 j1 fm md' em0 f2 j2 E1 E3 E2 Q) as (A & B & C).
  - intros sc I. apply in_map_iff in I. destruct I as (s & <- & Is). auto.
  - intros sc q I. apply in_map_iff in I. destruct I as (s & <- & Is). eauto.
  - intros v a Hv Ha. specialize (EQ v a Hv Ha). rewrite F in EQ. lra.
  - split; [exact A|]. split; [exact B|]. intros i Hi. rewrite (C i Hi). rewrite tot_map. reflexivity.
Qed.
(** At rest in time nothing is stored; in general the stored part is its matrix times the rate. *)
Theorem C239_rate : forall sides x xd fm fx md mj jx, calc sides true x xd = Ok (fm, fx, md, mj, jx) -> (forall sc, In sc sides -> far_unit d (fst sc)) ->
  (forall v a, (v < 2 + d)%nat -> fm v a = mul md xd v a) /\
  ((forall v a, xd v a = 0) -> forall v a, (v < 2 + d)%nat -> fm v a = 0).
Proof.
  intros sides x xd fm fx md mj jx H FU. destruct (calc_inv sides true x xd fm fx md mj jx H FU) as (f1 & j1 & f2 & j2 & md' & E1 & E2 & E3 & F & _ & Q).
  destruct (Q eq_refl) as [-> _]. assert (A := C185_rate d cp cv nphi D G tau_of qps x xd fm md' em0 E3). split; [exact A|].
  intros Z v a Hv. rewrite A by auto. unfold emul. apply sum_0. intros. apply sum_0. intros. rewrite Z. ring.
Qed.
(** The residuals do not depend on whether the matrices are asked for. *)
Theorem C239_asked : forall sides x xd fm fx md mj jx, calc sides true x xd = Ok (fm, fx, md, mj, jx) -> calc sides false x xd = Ok (fm, fx, em0, em0, em0).
Proof.
  intros sides x xd fm fx md mj jx. unfold fluid_calc. destruct (internal_residual _ _ _ _ _ _ _ _) as [i|]; [|discriminate]. cbn [bind].
  destruct (side_external_residual _ _ _ _ _ _ _) as [s|]; [|discriminate]. cbn [bind].
  destruct (velocity_residual _ _ _ _ _ _ _ _) as [[[? ?] ?]|]; [|discriminate]. cbn [bind]. now intros [= <- <- <- <- <-].
Qed.
(** If no wall moves, the product is the matrices times the vectors. *)
Theorem C239_product : forall sides x xd dx dxd fm fx md mj jx, calc sides true x xd = Ok (fm, fx, md, mj, jx) -> (forall sc, In sc sides -> far_unit d (fst sc)) ->
  (forall qs b mo, In (qs, SlipWall b, mo) sides -> at_standstill mo) ->
  exists g, product sides x xd dx dxd = Ok g /\ forall v a, (v < 2 + d)%nat -> g v a = mul jx dx v a + mul mj dx v a + mul md dxd v a.
Proof.
  intros sides x xd dx dxd fm fx md mj jx H FU S. destruct (calc_inv sides true x xd fm fx md mj jx H FU) as (f1 & j1 & f2 & j2 & md' & E1 & E2 & E3 & F & -> & Q).
  destruct (Q eq_refl) as [-> QJ].
  destruct (C238_still sides x dx f2 j2 (ev_plus ev0 (mul j1 dx)) E2 FU S) as (g & Eg & Hg).
  unfold fluid_product. rewrite (C185_linearized d cp cv nphi tau_of shock qps x dx f1 j1 E1). cbn [bind fst]. rewrite Eg. cbn [bind]. rewrite E3. cbn [bind].
  eexists. split; [reflexivity|]. intros v a Hv. unfold ev_plus at 1 2. rewrite Hg by auto. unfold ev_plus, ev0.
  rewrite (emul_ext d nphi jx (fun v a v' a' => j1 v a v' a' + j2 v a v' a')) by (intros; apply QJ). rewrite emul_plus. ring.
Qed.
Lemma map_lin_at sides t : map fst (lin_at sides t) = sides_at sides t.
Proof. unfold lin_at, sides_at. rewrite map_map. reflexivity. Qed.
(** The product is the derivative of the residual of a time step when flow, rate and walls move together: about a uniform flow at rest in time. *)
Theorem C239_derivative_partial : forall (sides : list mside) X XD t0 V VD (fm fx : R -> evec) (md mj jx : R -> emat),
  moving X t0 V -> moving XD t0 VD -> (forall v a, XD t0 v a = 0) ->
  (forall s, In s sides -> side_moves (snd (fst s)) t0 (snd s)) ->
  locally t0 (fun t => calc (lin_at sides t) true (X t) (XD t) = Ok (fm t, fx t, md t, mj t, jx t)) ->
  (forall sc, In sc (sides_at sides t0) -> far_unit d sc /\ settled d cp cv nphi (X t0) sc) ->
  (forall q i j, In q qps -> (i < 2 + d)%nat -> (j < 2 + d)%nat -> ex_derive (fun t => tau_of q (st (X t) q) i j) t0) ->
  (forall q c, In q qps -> (c < d)%nat -> ex_derive (fun t => dc_at shock q (X t) c) t0) ->
  (forall q c v, In q qps -> (c < d)%nat -> (v < 2 + d)%nat -> fe_dU nphi q (X t0) c v = 0) ->
  exists g, product (lin_at sides t0) (X t0) (XD t0) V VD = Ok g /\
    forall v a, (v < 2 + d)%nat -> is_derive (fun t => fm t v a + fx t v a) t0 (g v a).
Proof.
  intros sides X XD t0 V VD fm fx md mj jx M MD Z SM L FS HT HD HU.
  assert (FU : forall t sc, In sc (lin_at sides t) -> far_unit d (fst sc)).
  { intros t sc I. unfold lin_at in I. apply in_map_iff in I. destruct I as (s & <- & Is). cbn [fst].
    assert (Q := proj1 (FS _ (in_map (fun s => (fst (fst s), snd (fst s) t0)) _ _ Is))). unfold far_unit in *. cbn [fst snd] in *.
    destruct (SM s Is) as [(b & E & _)|(E & _)]; [rewrite E; exact I|]. now rewrite (E t). }
  set (ri := fun t => match internal_residual d cp cv nphi tau_of shock qps (X t) with Ok r => r | Fault _ => (ev0, em0) end).
  set (rs := fun t => match side_external_residual d cp cv nphi (sides_at sides t) (X t) (ev0, em0) with Ok r => r | Fault _ => (ev0, em0) end).
  assert (LA : locally t0 (fun t => internal_residual d cp cv nphi tau_of shock qps (X t) = Ok (fst (ri t), snd (ri t)) /\
      side_external_residual d cp cv nphi (sides_at sides t) (X t) (ev0, em0) = Ok (fst (rs t), snd (rs t)) /\
      velocity_residual d cp cv nphi tau_of qps (X t) (XD t) = Ok (fm t, md t, em0) /\ (forall v a, fx t v a = fst (ri t) v a + fst (rs t) v a))).
  { revert L. apply filter_imp. intros t Ht.
    destruct (calc_inv (lin_at sides t) true (X t) (XD t) _ _ _ _ _ Ht (FU t)) as (f1 & j1 & f2 & j2 & md' & E1 & E2 & E3 & F & _ & Q).
    rewrite map_lin_at in E2. destruct (Q eq_refl) as [-> _]. unfold ri, rs. rewrite E1, E2. cbn [fst snd]. auto. }
  assert (L1 : locally t0 (fun t => internal_residual d cp cv nphi tau_of shock qps (X t) = Ok (fst (ri t), snd (ri t)))) by (revert LA; apply filter_imp; intros t Ht; apply Ht).
  assert (L2 : locally t0 (fun t => side_external_residual d cp cv nphi (sides_at sides t) (X t) (ev0, em0) = Ok (fst (rs t), snd (rs t)))) by (revert LA; apply filter_imp; intros t Ht; apply Ht).
  assert (L3 : locally t0 (fun t => velocity_residual d cp cv nphi tau_of qps (X t) (XD t) = Ok (fm t, md t, em0))) by (revert LA; apply filter_imp; intros t Ht; apply Ht).
  destruct (locally_singleton _ _ LA) as (E1 & E2 & E3 & _).
  destruct (C238_sides sides X t0 V (fun t => fst (rs t)) (fun t => snd (rs t)) M SM L2 FS (ev_plus ev0 (mul (snd (ri t0)) V))) as (g & Eg & Hg).
  unfold fluid_product. rewrite (C185_linearized d cp cv nphi tau_of shock qps (X t0) V _ _ E1). cbn [bind fst]. rewrite Eg. cbn [bind]. rewrite E3. cbn [bind].
  eexists. split; [reflexivity|]. intros v a Hv.
  assert (D1 := C185_uniform_partial d cp cv nphi D G tau_of shock qps X t0 V (fun t => fst (ri t)) (fun t => snd (ri t)) M L1 HT HD HU v a Hv).
  assert (D2 := Hg v a Hv). cbv beta in D1, D2.
  assert (D3 : is_derive (fun t => fm t v a) t0 (mul (md t0) VD v a)).
  { destruct (velocity_sum d cp cv nphi D G tau_of qps (X t0) (XD t0) _ _ _ E3) as (K & _ & Q & _).
    apply (der_near _ (fun t => tot (fun q => vel_f d cp cv nphi (tau_of q (st (X t) q)) (XD t) q (st (X t) q) v a) qps)).
    { revert L3. apply filter_imp. intros t Ht. apply (velocity_sum d cp cv nphi D G tau_of qps (X t) (XD t) _ _ _ Ht). }
    assert (EJ : mul (md t0) VD v a = tot (fun q => vel_f d cp cv nphi (tau_of q (st (X t0) q)) VD q (st (X t0) q) v a) qps).
    { assert (RV : exists f j, velocity_residual d cp cv nphi tau_of qps (X t0) VD = Ok (f, j, em0)).
      { unfold velocity_residual. destruct (over_run (vel_step d cp cv nphi tau_of (X t0) VD) (fun q => vel_f d cp cv nphi (tau_of q (st (X t0) q)) VD q (st (X t0) q)) (fun q => vel_j d cp cv (tau_of q (st (X t0) q)) q (st (X t0) q)) (good d cp cv nphi (X t0))) with (l := qps) (acc := (ev0, em0)) as (f & j & E & _); auto.
        - intros; apply vel_step_ok; auto.
        - rewrite E. eexists _, _. reflexivity. }
      destruct RV as (f & j & E). destruct (velocity_sum d cp cv nphi D G tau_of qps (X t0) VD f j em0 E) as (_ & F & Q' & _).
      rewrite <- F. rewrite (C185_rate d cp cv nphi D G tau_of qps (X t0) VD f j em0 E v a Hv). apply emul_ext. intros. rewrite Q, Q'. reflexivity. }
    rewrite EJ. apply (tot_der (fun q t => vel_f d cp cv nphi (tau_of q (st (X t) q)) (XD t) q (st (X t) q) v a)). intros q Iq.
    assert (UZ : forall w, fe_U nphi q (XD t0) w = 0) by (intros; unfold fe_U; apply sum_0; intros; rewrite Z; ring).
    apply (der_ext (fun t => fq_w q * (fq_N q a * fe_U nphi q (XD t) v) + fq_w q * sum d (fun c => fq_dN q c a * mvec (nun d) (Afn d cp cv (st (X t) q) c) (mvec (nun d) (tau_of q (st (X t) q)) (fe_U nphi q (XD t))) v)) _ _
      (fq_w q * (fq_N q a * fe_U nphi q VD v) + fq_w q * sum d (fun c => fq_dN q c a * mvec (nun d) (Afn d cp cv (st (X t0) q) c) (mvec (nun d) (tau_of q (st (X t0) q)) (fe_U nphi q VD)) v))).
    - intros t. unfold vel_f. f_equal. f_equal. apply ls_mul.
    - unfold vel_f. f_equal. f_equal. apply ls_mul.
    - apply der_plus; apply der_scal; [apply der_scal, der_fe_U; auto|].
      apply (der_sum d (fun c t => fq_dN q c a * mvec (nun d) (Afn d cp cv (st (X t) q) c) (mvec (nun d) (tau_of q (st (X t) q)) (fe_U nphi q (XD t))) v)). intros c Hc. apply der_scal.
      assert (MZ : forall B w, mvec (nun d) B (fe_U nphi q (XD t0)) w = 0) by (intros; unfold mvec; apply sum_0; intros; rewrite UZ; ring).
      eapply der_is; [|apply (der_mvec (nun d) (fun t => Afn d cp cv (st (X t) q) c) (fun t => mvec (nun d) (tau_of q (st (X t) q)) (fe_U nphi q (XD t)))
        (fun i j => sum (nun d) (fun v => Sfn d cp cv (st (X t0) q) c v i j * fe_U nphi q V v)) (fun i => mvec (nun d) (fun i j => Derive (fun t => tau_of q (st (X t) q) i j) t0) (fe_U nphi q (XD t0)) i + mvec (nun d) (tau_of q (st (X t0) q)) (fe_U nphi q VD) i))].
      + cbv beta. assert (Z1 : forall B w, mvec (nun d) B (mvec (nun d) (tau_of q (st (X t0) q)) (fe_U nphi q (XD t0))) w = 0).
        { intros. unfold mvec at 1. apply sum_0. intros. rewrite MZ. ring. }
        rewrite Z1. rewrite Rplus_0_l. apply mvec_ext. intros k Hk. rewrite MZ. ring.
      + intros j Hj. apply der_A; auto. rewrite nun_2; auto.
      + intros j Hj. apply (der_mvec (nun d) (fun t => tau_of q (st (X t) q)) (fun t => fe_U nphi q (XD t)) (fun i j => Derive (fun t => tau_of q (st (X t) q) i j) t0)).
        * intros k Hk. apply Derive_correct. rewrite nun_2 in *. apply HT; auto.
        * intros k Hk. apply der_fe_U; auto. }
  apply (der_near _ (fun t => fm t v a + (fst (ri t) v a + fst (rs t) v a))).
  { revert LA. apply filter_imp. intros t (_ & _ & _ & Q). rewrite Q. reflexivity. }
  eapply der_is; [|apply der_plus; [exact D3|apply der_plus; [exact D1|exact D2]]].
  unfold ev_plus, ev0. assert (ZM : mul em0 V v a = 0) by (unfold emul, em0; apply sum_0; intros; apply sum_0; intros; ring). rewrite ZM. ring.
Qed.
End C239.
End C238.
