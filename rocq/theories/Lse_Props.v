(** C163 - C165: volume, volume fraction and perimeter of a level set.  For every element, every number of
    nodes and quadrature points, every nodal field, every distribution of the elements over processors. *)
From Coq Require Import Reals Lra Lia.
From Coquelicot Require Import Coquelicot.
From Coq Require Import List Arith Bool Permutation.
From Verif Require Import Base BaseLemmas RBool Sens_Model Sens_Spec Sens_Proofs2 Heat_Proofs Solid_Proofs2 Lse_Model Lse_Spec Lse_Proofs Lse_Proofs2 Lse_Proofs3.
Import ListNotations.
Open Scope R_scope.

(** a line element of length one with one quadrature point, for the examples *)
Definition qline : lpt := mkLpt 1 (fun _ => 0) (fun _ => 1/2) (fun a _ => if (a =? 0)%nat then -1 else 1) (fun _ _ => 1).
Definition uline (a b : R) : vec := fun i => if (i =? 0)%nat then a else b.
Lemma qline_partition : partition 2 1 qline.
Proof. split; [cbn; lra|]. intros j _. cbn. lra. Qed.
Lemma qline_positive : positive [qline].
Proof. split; [discriminate|]. intros q [<-|[]]. cbn. lra. Qed.

(** ** C163 *)
(** the volume is the measure of the part where the level set function is positive *)
Theorem C163_value n qs u : volume n qs u = integral qs (fun q => step (at_q n q u)).
Proof. apply volume_eq. Qed.
Theorem C163_bounds n qs u : (forall q, In q qs -> 0 <= lw q) ->
  0 <= volume n qs u <= integral qs (fun _ => 1).
Proof.
  intros H. rewrite volume_eq. unfold integral. split.
  - apply lsum_map_nonneg. intros q Hq. specialize (H q Hq). unfold step. destruct (Rlt_dec _ _); lra.
  - apply total_le. intros q Hq. specialize (H q Hq). unfold step. destruct (Rlt_dec _ _); lra.
Qed.
(** raising the level set function does not shrink the volume *)
Theorem C163_monotone n qs u v : (forall q, In q qs -> 0 <= lw q) ->
  (forall q, In q qs -> at_q n q u <= at_q n q v) -> volume n qs u <= volume n qs v.
Proof.
  intros H L. rewrite !volume_eq. unfold integral. apply total_le. intros q Hq. specialize (H q Hq). specialize (L q Hq).
  unfold step. destruct (Rlt_dec 0 (at_q n q u)); destruct (Rlt_dec 0 (at_q n q v)); lra.
Qed.
(** only the sign of the level set function matters *)
Theorem C163_scale n qs u c : 0 < c -> volume n qs (fun a => c * u a) = volume n qs u.
Proof.
  intros Hc. rewrite !volume_eq. apply int_ext. intros q _. rewrite at_scal. unfold step.
  destruct (Rlt_dec 0 (c * at_q n q u)); destruct (Rlt_dec 0 (at_q n q u)); try reflexivity; exfalso; nra.
Qed.
(** the two sides of the level set make up the element *)
Theorem C163_complement n qs u : (forall q, In q qs -> at_q n q u <> 0) ->
  volume n qs u + volume n qs (fun a => - u a) = integral qs (fun _ => 1).
Proof.
  intros H. rewrite !volume_eq, <- int_plus. apply int_ext. intros q Hq. specialize (H q Hq).
  replace (at_q n q (fun a => - u a)) with (- at_q n q u) by (unfold at_q; rewrite <- sum_opp; apply sum_ext; intros; ring).
  unfold step. destruct (Rlt_dec 0 (at_q n q u)); destruct (Rlt_dec 0 (- at_q n q u)); lra.
Qed.
(** the output is the sum over the elements it is evaluated on, on every processor, however the elements are
    distributed *)
Theorem C163_output n rs : exists l, on_ranks (volume_evaluate n) rs = Ok l /\
  (forall k, output_total false l k = total (fun e => volume n (o_qs e) (o_sol e)) (counted rs)) /\
  (forall k, output_sensitivity_total false l k = 0).
Proof.
  exists (map (fun es => (total (volume_for_elem n) es, total (fun _ => 0) es)) rs). split; [|split].
  - apply on_ranks_sum. intros e s _. unfold volume_evaluate, volume_for_elem. destruct (o_here e); [|destruct s; cbn]; do 2 f_equal; ring.
  - intros k. destruct (total_of_ranks (volume_for_elem n) (fun _ => 0) rs k) as [-> _]. apply (total_filter o_here (fun e => volume n (o_qs e) (o_sol e))).
  - intros k. destruct (total_of_ranks (volume_for_elem n) (fun _ => 0) rs k) as [_ ->].
    transitivity (0 * total (fun _ : oelem => 0) (concat rs)); [rewrite <- total_scal; apply total_ext; intros; ring|ring].
Qed.
Theorem C163_distribution n rs rs' l l' k k' : Permutation (concat rs) (concat rs') ->
  on_ranks (volume_evaluate n) rs = Ok l -> on_ranks (volume_evaluate n) rs' = Ok l' ->
  output_total false l k = output_total false l' k'.
Proof.
  intros P H H'. destruct (C163_output n rs) as (m & E & T & _). destruct (C163_output n rs') as (m' & E' & T' & _).
  rewrite H in E. injection E as <-. rewrite H' in E'. injection E' as <-. rewrite T, T'. apply total_perm. unfold counted.
  clear - P. induction P; cbn; auto; repeat match goal with |- context [o_here ?x] => destruct (o_here x) end; auto using perm_swap. etransitivity; eauto.
Qed.
(** the sensitivity of the volume is the flux of the normal speed (d phi/dp) / |grad phi| through the sides
    on the level set *)
Theorem C163_sensitivity n dim rs : (forall s u du, In (s, u, du) (sides rs) -> not_flat n dim s u) ->
  exists l, on_ranks (volume_topology_sensitivity n dim true) rs = Ok l /\
  forall k, output_sensitivity_total false l k =
    total (fun x => let '(s, u, du) := x in integral s (fun q => at_q n q du / len dim (grad_q n q u))) (sides rs).
Proof.
  intros H.
  set (h := fun e => match on_boundary e with Some s => integral s (fun q => at_q n q (o_dsol e) / len dim (grad_q n q (o_sol e))) | None => 0 end).
  exists (map (fun es => (total (fun _ => 0) es, total h es)) rs). split.
  - apply on_ranks_sum. intros e s He. unfold volume_topology_sensitivity, assert_, h.
    destruct (on_boundary e) as [sd|] eqn:B; [|destruct s; cbn; do 2 f_equal; ring].
    rewrite side_eq; [cbn; do 2 f_equal; ring|]. intros q Hq. unfold on_boundary in B. destruct (o_here e) eqn:E1; [|discriminate].
    destruct (o_cut e) eqn:E2; [|discriminate]. cbn in B. refine (H sd (o_sol e) (o_dsol e) _ q Hq).
    unfold sides, counted. apply in_flat_map. exists e. rewrite E2, B. split; [|left; auto]. apply filter_In. auto.
  - intros k. destruct (total_of_ranks (fun _ => 0) h rs k) as [_ ->]. unfold sides, counted. rewrite total_flat, <- total_filter.
    apply total_ext. intros e _. unfold h, on_boundary. destruct (o_here e); cbn [andb]; [|reflexivity].
    destruct (o_cut e); [|reflexivity]. destruct (o_side e); [|reflexivity]. unfold total; cbn. ring.
Qed.
(** raising the level set function cannot shrink the volume at first order either, and the parametrisation of the
    level set function does not matter *)
Theorem C163_sensitivity_sign n dim side u du v : (forall q, In q side -> 0 <= lw q) ->
  (forall q, In q side -> 0 <= at_q n q du) -> volume_boundary_velocity n dim side u du = Ok v -> 0 <= v.
Proof.
  intros W D H. destruct (Classical_Prop.classic (exists q, In q side /\ len dim (grad_q n q u) = 0)) as [(q & Hq & E)|N].
  - rewrite (side_flat n dim side u du q Hq E) in H. discriminate.
  - assert (F : forall q, In q side -> len dim (grad_q n q u) <> 0) by (intros q Hq E; apply N; eauto).
    rewrite side_eq in H by auto. injection H as <-. apply lsum_map_nonneg. intros q Hq. apply Rmult_le_pos; [auto|].
    apply Rmult_le_pos; [auto|]. apply Rlt_le, Rinv_0_lt_compat, len_pos, F, Hq.
Qed.
Theorem C163_sensitivity_scale n dim side u du c : 0 < c ->
  volume_boundary_velocity n dim side (fun a => c * u a) (fun a => c * du a) = volume_boundary_velocity n dim side u du.
Proof.
  intros Hc. assert (L : forall q, len dim (grad_q n q (fun a => c * u a)) = c * len dim (grad_q n q u)).
  { intros q. transitivity (len dim (fun j => c * grad_q n q u j)); [|rewrite len_scal, Rabs_right; lra].
    unfold len. f_equal. apply sum_ext. intros. now rewrite !grad_scal. }
  destruct (Classical_Prop.classic (exists q, In q side /\ len dim (grad_q n q u) = 0)) as [(q & Hq & E)|N].
  - rewrite (side_flat n dim side u du q Hq E). apply (side_flat _ _ _ _ _ q Hq). rewrite L, E. ring.
  - assert (F : forall q, In q side -> len dim (grad_q n q u) <> 0) by (intros q Hq E; apply N; eauto).
    rewrite !side_eq; auto.
    + f_equal. apply int_ext. intros q Hq. rewrite L, at_scal. field. split; [auto|lra].
    + intros q Hq E. rewrite L in E. apply Rmult_integral in E. destruct E; [lra|]. now apply (F q).
Qed.
(** a flat spot on the side, or a parameter that is not a topology parameter, is not answered with a number *)
Theorem C163_refused n dim : (forall side u du q, In q side -> len dim (grad_q n q u) = 0 -> volume_boundary_velocity n dim side u du = Fault DivByZero) /\
  (forall e es s, on_elems (volume_topology_sensitivity n dim false) (e :: es) s = Fault AssertFailed).
Proof. split; [intros; now apply (side_flat n dim side u du q)|reflexivity]. Qed.
Example C163_example : volume 2 [qline] (uline (-1) 3) = 1 /\ volume 2 [qline] (uline 1 (-3)) = 0 /\
  volume_boundary_velocity 2 1 [qline] (uline (-1) 1) (uline 1 1) = Ok (1/2).
Proof.
  rewrite !volume_eq. repeat split.
  - unfold integral, total, at_q, step; cbn. destruct (Rlt_dec _ _); lra.
  - unfold integral, total, at_q, step; cbn. destruct (Rlt_dec _ _); lra.
  - assert (L : len 1 (grad_q 2 qline (uline (-1) 1)) = 2).
    { unfold len, grad_q. cbn. replace (0 + (0 + -1 * -1 + 1 * 1) * (0 + -1 * -1 + 1 * 1)) with (2 * 2) by ring. apply sqrt_square. lra. }
    rewrite side_eq; [|intros q [<-|[]]; rewrite L; lra]. f_equal. unfold integral, total. cbn [map lsum fold_right]. rewrite L. unfold at_q; cbn. lra.
Qed.

(** ** C164 *)
Theorem C164_value n qs u d : d <> 0 -> positive qs -> exists v, homogenized_volume_fraction n qs u d = Ok v /\
  v * integral qs (fun _ => 1) = integral qs (fun q => smooth_step d (at_q n q u)).
Proof. intros Hd P. pose proof (measure_pos qs P). eexists. split; [apply fraction_eq; auto|]. field. lra. Qed.
(** a fraction: strictly between nothing and everything *)
Theorem C164_bounds n qs u d : d <> 0 -> positive qs -> exists v, homogenized_volume_fraction n qs u d = Ok v /\ 0 < v < 1.
Proof.
  intros Hd P. pose proof (measure_pos qs P) as M. eexists. split; [apply fraction_eq; auto|].
  assert (A : 0 < integral qs (fun q => smooth_step d (at_q n q u))).
  { apply total_pos; [apply P|]. intros q Hq. apply Rmult_lt_0_compat; [now apply P|apply smooth_step_bound]. }
  assert (B : integral qs (fun q => smooth_step d (at_q n q u)) < integral qs (fun _ => 1)).
  { apply total_lt; [apply P|]. intros q Hq. apply Rmult_lt_compat_l; [now apply P|apply smooth_step_bound]. }
  split; [now apply Rdiv_lt_0_compat|]. apply Rmult_lt_reg_r with (integral qs (fun _ => 1)); [auto|]. unfold Rdiv. rewrite Rmult_assoc, Rinv_l by lra. lra.
Qed.
Theorem C164_monotone n qs u v d x y : 0 < d -> positive qs -> (forall q, In q qs -> at_q n q u < at_q n q v) ->
  homogenized_volume_fraction n qs u d = Ok x -> homogenized_volume_fraction n qs v d = Ok y -> x < y.
Proof.
  intros Hd P L. pose proof (measure_pos qs P) as M. rewrite !fraction_eq by (auto; lra). intros [= <-] [= <-].
  apply Rmult_lt_compat_r; [now apply Rinv_0_lt_compat|]. apply total_lt; [apply P|]. intros q Hq.
  apply Rmult_lt_compat_l; [now apply P|]. apply smooth_step_mono; auto.
Qed.
(** the two sides of the level set make up the element *)
Theorem C164_complement n qs u d x y : d <> 0 -> positive qs ->
  homogenized_volume_fraction n qs u d = Ok x -> homogenized_volume_fraction n qs (fun a => - u a) d = Ok y -> x + y = 1.
Proof.
  intros Hd P. pose proof (measure_pos qs P) as M. rewrite !fraction_eq by auto. intros [= <-] [= <-].
  rewrite <- Rdiv_plus_distr, <- int_plus. rewrite (int_ext qs _ (fun _ => 1)); [apply Rinv_r; lra|].
  intros q _. replace (at_q n q (fun a => - u a)) with (- at_q n q u) by (unfold at_q; rewrite <- sum_opp; apply sum_ext; intros; ring).
  rewrite smooth_step_neg. ring.
Qed.
(** rescaling the level set function together with the width of the smoothing changes nothing *)
Theorem C164_scale n qs u d c : c <> 0 -> d <> 0 -> positive qs ->
  homogenized_volume_fraction n qs (fun a => c * u a) (c * d) = homogenized_volume_fraction n qs u d.
Proof.
  intros Hc Hd P. rewrite !fraction_eq by (auto; now apply Rmult_integral_contrapositive). do 2 f_equal. apply int_ext. intros q _.
  rewrite at_scal. now apply smooth_step_scale.
Qed.
(** the sensitivity is the derivative *)
Theorem C164_sensitivity n qs t0 u du d : d <> 0 -> positive qs -> history n t0 u du ->
  exists (F : R -> R) s, (forall t, homogenized_volume_fraction n qs (u t) d = Ok (F t)) /\
  homogenized_volume_fraction_sensitivity n qs (u t0) du d = Ok s /\ is_derive F t0 s.
Proof.
  intros Hd P H. pose proof (measure_pos qs P) as M.
  exists (fun t => integral qs (fun q => smooth_step d (at_q n q (u t))) / integral qs (fun _ => 1)). eexists. split; [|split].
  - intros t. apply fraction_eq; auto.
  - apply fraction_sens_eq; auto.
  - apply (der_fun (fun t => / integral qs (fun _ => 1) * integral qs (fun q => smooth_step d (at_q n q (u t))))); [intros; unfold Rdiv; ring|].
    eapply der_eq; [apply der_scal, (der_intl qs (fun t q => smooth_step d (at_q n q (u t))))|unfold Rdiv; apply Rmult_comm].
    intros q _. apply der_step; [auto|]. now apply der_at.
Qed.
(** a width of zero is not accepted *)
Theorem C164_refused n qs u du : homogenized_volume_fraction n qs u 0 = Fault DivByZero /\
  homogenized_volume_fraction_sensitivity n qs u du 0 = Fault DivByZero.
Proof. unfold homogenized_volume_fraction, homogenized_volume_fraction_sensitivity. rewrite (proj2 (reqb_true 0 0) eq_refl). auto. Qed.
Example C164_example : homogenized_volume_fraction 2 [qline] (uline 0 2) 1 = Ok (3/4).
Proof.
  rewrite fraction_eq; [|lra|apply qline_positive]. f_equal. unfold integral, total, at_q, smooth_step. cbn.
  replace ((0 + 1 / 2 * 0 + 1 / 2 * 2) / 1) with 1 by field. rewrite atan_1. pose proof PI_RGT_0. field. lra.
Qed.

(** ** C165 *)
Theorem C165_value n qs u d : d <> 0 -> perimeter n qs u d = Ok (integral qs (fun q => smooth_delta d (at_q n q u))).
Proof. apply perimeter_eq. Qed.
Theorem C165_positive n qs u d : 0 < d -> positive qs -> exists p, perimeter n qs u d = Ok p /\ 0 < p.
Proof.
  intros Hd P. eexists. split; [apply perimeter_eq; lra|]. apply total_pos; [apply P|]. intros q Hq.
  apply Rmult_lt_0_compat; [now apply P|now apply delta_pos].
Qed.
(** both sides see the same perimeter *)
Theorem C165_two_sides n qs u d : d <> 0 -> perimeter n qs (fun a => - u a) d = perimeter n qs u d.
Proof.
  intros Hd. rewrite !perimeter_eq by auto. f_equal. apply int_ext. intros q _.
  replace (at_q n q (fun a => - u a)) with (- at_q n q u) by (unfold at_q; rewrite <- sum_opp; apply sum_ext; intros; ring).
  apply delta_even.
Qed.
(** it is the rate at which the smoothed volume grows when the level set function is raised everywhere *)
Theorem C165_rate n dim qs u d s0 : d <> 0 -> positive qs -> (forall q, In q qs -> partition n dim q) ->
  exists (F : R -> R) p, (forall s, homogenized_volume_fraction n qs (fun a => u a + s) d = Ok (F s)) /\
  perimeter n qs (fun a => u a + s0) d = Ok p /\ is_derive F s0 (p / integral qs (fun _ => 1)).
Proof.
  intros Hd P Q. pose proof (measure_pos qs P) as M.
  destruct (C164_sensitivity n qs s0 (fun s a => u a + s) (fun _ => 1) d Hd P) as (F & s & A & B & C).
  { intros a _. eapply der_eq; [apply der_plus; [apply der_const|apply is_derive_id]|]. cbn. unfold one; cbn. ring. }
  exists F. eexists. split; [exact A|]. split; [now apply perimeter_eq|]. eapply der_eq; [exact C|].
  rewrite fraction_sens_eq in B by auto. injection B as <-. f_equal. apply int_ext. intros q Hq.
  assert (E : at_q n q (fun _ => 1) = 1); [|rewrite E; ring]. unfold at_q. rewrite (sum_ext n _ (lN q)) by (intros; ring). apply (Q q Hq).
Qed.
(** the sensitivity is the derivative, for an element and for the output *)
Theorem C165_sensitivity n qs t0 u du d : d <> 0 -> history n t0 u du ->
  exists (F : R -> R) s, (forall t, perimeter n qs (u t) d = Ok (F t)) /\
  perimeter_sensitivity n qs (u t0) du d = Ok s /\ is_derive F t0 s.
Proof.
  intros Hd H. do 2 eexists. split; [intros t; apply perimeter_eq; auto|]. split; [apply perimeter_sens_eq; auto|].
  apply (der_intl qs (fun t q => smooth_delta d (at_q n q (u t)))). intros q _. apply der_delta; [auto|]. now apply der_at.
Qed.
Lemma total_der {A} (l : list A) (f : A -> R -> R) (g : A -> R) (t0 : R) : (forall x, In x l -> is_derive (f x) t0 (g x)) ->
  is_derive (fun t => total (fun x => f x t) l) t0 (total g l).
Proof. intros H. apply (der_total l f g). exact H. Qed.
Lemma perimeter_out n d rs : d <> 0 -> on_ranks (perimeter_evaluate n d) rs =
  Ok (map (fun es => (total (fun e => if o_here e then integral (o_qs e) (fun q => smooth_delta d (at_q n q (o_sol e))) else 0) es, total (fun _ => 0) es)) rs).
Proof.
  intros Hd. apply on_ranks_sum. intros e s _. unfold perimeter_evaluate. destruct (o_here e); [|destruct s; cbn; do 2 f_equal; ring].
  rewrite perimeter_eq by auto. cbn. do 2 f_equal; ring.
Qed.
Lemma perimeter_sens_out n d rs : d <> 0 -> on_ranks (perimeter_topology_sensitivity n d true) rs =
  Ok (map (fun es => (total (fun _ => 0) es, total (fun e => if o_here e then integral (o_qs e) (fun q => ddelta d (at_q n q (o_sol e)) * at_q n q (o_dsol e)) else 0) es)) rs).
Proof.
  intros Hd. apply on_ranks_sum. intros e s _. unfold perimeter_topology_sensitivity, assert_. destruct (o_here e); [|destruct s; cbn; do 2 f_equal; ring].
  rewrite perimeter_sens_eq by auto. cbn. do 2 f_equal; ring.
Qed.
Theorem C165_output n d rs t0 (u : oelem -> R -> vec) : d <> 0 ->
  (forall e, In e (concat rs) -> history n t0 (u e) (o_dsol e)) ->
  let now t := map (map (fun e => with_sol e (u e t))) rs in
  exists (F : R -> R) l, (forall t, exists lt, on_ranks (perimeter_evaluate n d) (now t) = Ok lt /\ forall k, output_total false lt k = F t) /\
  on_ranks (perimeter_topology_sensitivity n d true) (now t0) = Ok l /\
  forall k, is_derive F t0 (output_sensitivity_total false l k).
Proof.
  intros Hd H now.
  exists (fun t => total (fun e => if o_here e then integral (o_qs e) (fun q => smooth_delta d (at_q n q (u e t))) else 0) (concat rs)).
  eexists. split; [|split].
  - intros t. eexists. split; [apply perimeter_out; auto|]. intros k.
    match goal with |- output_total false (map (fun es => (total ?g es, total ?h es)) ?r) k = _ => destruct (total_of_ranks g h r k) as [-> _] end.
    unfold now. rewrite <- concat_map. unfold total. rewrite map_map. reflexivity.
  - apply perimeter_sens_out; auto.
  - intros k. match goal with |- is_derive _ _ (output_sensitivity_total false (map (fun es => (total ?g es, total ?h es)) ?r) k) => destruct (total_of_ranks g h r k) as [_ ->] end.
    unfold now. rewrite <- concat_map. unfold total at 2. rewrite map_map. cbn [with_sol o_here o_qs o_sol o_dsol].
    apply (total_der (concat rs) (fun e t => if o_here e then integral (o_qs e) (fun q => smooth_delta d (at_q n q (u e t))) else 0)).
    intros e He. destruct (o_here e); [|apply der_const].
    apply (der_intl (o_qs e) (fun t q => smooth_delta d (at_q n q (u e t)))). intros q _. apply der_delta; [auto|]. apply der_at. now apply H.
Qed.
(** the sensitivity reported for a single element leaves out the elements the level set does not cut, although
    the perimeter counts them *)
Theorem C165_single_element_refuted : exists e s, perimeter_for_elem 2 1 e <> Ok 0 /\
  perimeter_sensitivity 2 (o_qs e) (o_sol e) (o_dsol e) 1 = Ok s /\ s <> 0 /\ perimeter_sensitivity_for_elem 2 1 e = Ok 0.
Proof.
  exists (mkOe true false None [qline] (uline 1 1) (uline 1 1)). eexists. repeat split.
  - unfold perimeter_for_elem. cbn [o_here o_qs o_sol]. destruct (C165_positive 2 [qline] (uline 1 1) 1 ltac:(lra) qline_positive) as (p & -> & Hp).
    intros [= E]. lra.
  - apply perimeter_sens_eq. lra.
  - cbn [o_qs o_sol o_dsol]. unfold integral, total, ddelta, at_q; cbn. pose proof PI_RGT_0. 
    replace (0 + 1 / 2 * 1 + 1 / 2 * 1) with 1 by field. intros E.
    assert (Z : - (2 * 1 * 1) / (PI * ((1 * 1 + 1 * 1) * (1 * 1 + 1 * 1))) = - (/ (2 * PI))) by (field; lra).
    rewrite Z in E. assert (0 < / (2 * PI)) by (apply Rinv_0_lt_compat; lra). lra.
Qed.
Theorem C165_single_element_partial n d e : o_here e = true -> o_cut e = true -> o_side e <> None ->
  perimeter_sensitivity_for_elem n d e = perimeter_sensitivity n (o_qs e) (o_sol e) (o_dsol e) d.
Proof. intros A B C. unfold perimeter_sensitivity_for_elem, on_boundary. rewrite A, B. cbn. destruct (o_side e); [reflexivity|contradiction]. Qed.
(** the value is not a property of the region: a steeper level set function of the same region, smoothed in
    proportion, has the same volume and volume fraction but a smaller perimeter *)
Theorem C165_steepness n qs u d c : c <> 0 -> d <> 0 ->
  perimeter n qs (fun a => c * u a) (c * d) = Ok (/ c * integral qs (fun q => smooth_delta d (at_q n q u))).
Proof.
  intros Hc Hd. rewrite perimeter_eq by now apply Rmult_integral_contrapositive. f_equal. rewrite <- int_scal. apply int_ext. intros q _.
  rewrite at_scal. now apply delta_scale.
Qed.
Theorem C165_region_refuted : exists qs u d p p', 0 < d /\ positive qs /\
  volume 2 qs (fun a => 2 * u a) = volume 2 qs u /\
  homogenized_volume_fraction 2 qs (fun a => 2 * u a) (2 * d) = homogenized_volume_fraction 2 qs u d /\
  perimeter 2 qs u d = Ok p /\ perimeter 2 qs (fun a => 2 * u a) (2 * d) = Ok p' /\ p' = p / 2 /\ p' <> p.
Proof.
  exists [qline], (uline (-1) 1), 1. do 2 eexists. split; [lra|]. split; [apply qline_positive|].
  split; [apply C163_scale; lra|]. split; [apply C164_scale; [lra|lra|apply qline_positive]|].
  split; [apply perimeter_eq; lra|]. split; [apply C165_steepness; lra|].
  destruct (C165_positive 2 [qline] (uline (-1) 1) 1 ltac:(lra) qline_positive) as (p & E & Hp). rewrite perimeter_eq in E by lra. injection E as E.
  split; [unfold Rdiv; lra|]. lra.
Qed.
Example C165_example : perimeter 2 [qline] (uline (-1) 1) 1 = Ok (/ PI).
Proof. rewrite perimeter_eq by lra. f_equal. unfold integral, total, smooth_delta, at_q; cbn. pose proof PI_RGT_0. replace (0 + 1 / 2 * -1 + 1 / 2 * 1) with 0 by field. field. lra. Qed.

Print Assumptions C163_sensitivity.
Print Assumptions C164_sensitivity.
Print Assumptions C165_output.
Print Assumptions C165_region_refuted.
