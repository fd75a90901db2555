(** C180: the compliance is the work of the loads.  C181: its derivatives. *)
From Coq Require Import Reals.
From Coquelicot Require Import Coquelicot.
From Coq Require Import List Arith Bool Lia Lra.
From Verif Require Import Base BaseLemmas RBool Sens_Model Sens_Spec Sens_Proofs Sens_Proofs2 Sens_Props Heat_Proofs Solid_Proofs2 Cmp_Model Cmp_Spec.
Import ListNotations.
Open Scope R_scope.

Lemma ext_eq : forall e th x k, external e th x k = - load_of e th x k.
Proof. intros. unfold external, plus_, v0, load_of. ring. Qed.
Lemma filter_map : forall A B (f : A -> B) p l, filter p (map f l) = map f (filter (fun a => p (f a)) l).
Proof. intros A B f p. induction l as [|a l IH]; [reflexivity|]. cbn. destruct (p (f a)); cbn; rewrite IH; reflexivity. Qed.
Lemma total_map : forall A B (f : A -> B) g l, total g (map f l) = total (fun a => g (f a)) l.
Proof. intros. unfold total. rewrite map_map. reflexivity. Qed.
Lemma compliance_work : forall e th x, compliance e th x = dot (length (s_dofs e)) (load_of e th x) x.
Proof.
  intros e th x. unfold compliance. transitivity (- dot (length (s_dofs e)) (external e th x) x); [ring|].
  unfold dot. rewrite <- sum_opp. apply sum_ext. intros k K. rewrite ext_eq. ring.
Qed.
(** The output is the work of the loads of the elements that take part. *)
Theorem C180_value : forall S th es X, made_of S es ->
  calculate_output S th X = work_of_loads th (filter (fun e => negb (diag S (s_sub e)) && s_here e) es) X.
Proof.
  intros S th es X M. rewrite C108_output. unfold output_of. rewrite M, filter_map, total_map. unfold work_of_loads.
  apply total_ext. intros e _. apply compliance_work.
Qed.
(** The same for every distribution of the elements over processes. *)
Theorem C180_distribution : forall S S' th es es' X, made_of S es -> made_of S' es' -> diag S = diag S' ->
  Permutation.Permutation es es' -> calculate_output S th X = calculate_output S' th X.
Proof.
  intros S S' th es es' X M M' D P. rewrite (C180_value S th es X M), (C180_value S' th es' X M'), D. unfold work_of_loads.
  apply total_perm. clear - P. induction P; cbn; auto.
  - destruct (_ && _); [constructor; assumption|assumption].
  - destruct (negb (diag S' (s_sub x)) && s_here x); destruct (negb (diag S' (s_sub y)) && s_here y); try constructor; try apply Permutation.Permutation_refl.
  - eapply Permutation.Permutation_trans; eassumption.
Qed.
(** Linear in the displacements for dead loads, linear in the loads. *)
Theorem C180_linear : forall e th x y (a : R), dead e ->
  compliance e th (fun k => a * x k + y k) = a * compliance e th x + compliance e th y.
Proof.
  intros e th x y a D. rewrite !compliance_work. unfold dot. rewrite <- sum_scal_l, <- sum_plus. apply sum_ext. intros k K.
  unfold load_of. rewrite (D th (fun k => a * x k + y k) x k K), (D th y x k K). ring.
Qed.

(** Equilibrium: the work of an assembled vector on admissible displacements *)
Lemma part_work : forall S ds v X, well_formed S -> (forall d, In d ds -> (d < n S)%nat) -> admissible S X ->
  sum (n S) (fun i => if constrained S i then 0 else part S ds v i * X i) = dot (length ds) v (gather ds X).
Proof.
  intros S ds v X W L A.
  transitivity (sum (n S) (fun i => part S ds v i * X i)).
  { apply sum_ext. intros i I. destruct (constrained S i) eqn:C; [|reflexivity]. symmetry.
    replace (part S ds v i) with 0; [ring|]. symmetry. apply sum_0. intros k K.
    rewrite (coef_constrained S W (dof ds k) i); [ring| |exact C]. apply L. apply nth_In. exact K. }
  unfold part. transitivity (sum (n S) (fun i => sum (length ds) (fun k => coef S (dof ds k) i * v k * X i))).
  { apply sum_ext. intros i I. rewrite <- sum_scal_r. reflexivity. }
  rewrite sum_swap. unfold dot. apply sum_ext. intros k K.
  transitivity (v k * sum (n S) (fun i => coef S (dof ds k) i * X i)).
  { rewrite <- sum_scal_l. apply sum_ext. intros. ring. }
  f_equal. assert (Dk : (dof ds k < n S)%nat) by (apply L; apply nth_In; exact K).
  rewrite (coef_sum S W X _ Dk), (enforce_adm S X _ A Dk). reflexivity.
Qed.
Lemma sum_total' : forall A m (f : A -> nat -> R) l, sum m (fun i => total (fun a => f a i) l) = total (fun a => sum m (f a)) l.
Proof.
  intros A m f l. induction l as [|a l IH]; [cbn; unfold total; cbn; apply sum_0; auto|].
  transitivity (sum m (fun i => f a i + total (fun a => f a i) l)); [apply sum_ext; intros i I; exact (total_cons (fun a => f a i) a l)|].
  rewrite sum_plus, IH, total_cons. reflexivity.
Qed.
(** At equilibrium the compliance of the whole structure is the work of the internal forces less the work of the point
    loads, which it does not count. *)
Theorem C180_equilibrium : forall S th es X, well_formed S -> made_of S es ->
  (forall e, In e es -> diag S (s_sub e) = false /\ s_here e = true) -> admissible S X ->
  (forall i, (i < n S)%nat -> constrained S i = false -> residual_of S th X i = 0) ->
  calculate_output S th X = work_of_forces th es X - work_of_points S th X.
Proof.
  intros S th es X W M H A E.
  assert (F : forall p : selem -> bool, (forall e, In e es -> p e = true) -> filter p es = es).
  { intros p Hp. clear - Hp. induction es as [|e es IH]; [reflexivity|]. cbn. rewrite (Hp e (or_introl eq_refl)).
    f_equal. apply IH. intros x I. apply Hp. right. exact I. }
  assert (Fa : filter (fun e => negb (diag S (s_sub e)) && s_here e) es = es).
  { apply F. intros e I. destruct (H e I) as [-> ->]. reflexivity. }
  assert (Fb : filter (active S) (elements S) = map as_elem es).
  { rewrite M, filter_map. f_equal. apply F. intros e I. unfold active. cbn. rewrite (proj1 (H e I)). reflexivity. }
  rewrite (C180_value S th es X M), Fa.
  assert (Z : sum (n S) (fun i => if constrained S i then 0 else residual_of S th X i * X i) = 0).
  { apply sum_0. intros i I. destruct (constrained S i) eqn:C; [reflexivity|]. rewrite (E i I C). ring. }
  unfold residual_of in Z. rewrite Fb in Z. unfold forces in Z.
  destruct W as [W1 [W2 W3]]. assert (W : well_formed S) by (split; [exact W1|split; [exact W2|exact W3]]).
  rewrite (sum_ext (n S) _ (fun i =>
     total (fun e => if constrained S i then 0 else part S (s_dofs e) (e_res (as_elem e) th (gather (s_dofs e) X)) i * X i) es -
     total (fun l => total (fun nd => if constrained S i then 0 else part S (snd nd) (p_load l th (fst nd)) i * X i) (p_nodes l)) (loads S))) in Z.
  2:{ intros i I. rewrite total_map. destruct (constrained S i).
      - rewrite !total_0; [ring| |]; intros; [apply total_0; auto|reflexivity].
      - unfold Rminus. rewrite Rmult_plus_distr_r. f_equal.
        + rewrite Rmult_comm, <- total_scal. apply total_ext. intros. cbn [edofs as_elem]. ring.
        + rewrite Ropp_mult_distr_l_reverse. f_equal. rewrite Rmult_comm, <- total_scal. apply total_ext. intros l _.
          rewrite <- total_scal. apply total_ext. intros. ring. }
  rewrite sum_minus, !sum_total' in Z.
  rewrite (total_ext _ (fun e => dot (length (s_dofs e)) (e_res (as_elem e) th (gather (s_dofs e) X)) (gather (s_dofs e) X)) es) in Z.
  2:{ intros e I. apply part_work; [exact W| |exact A]. intros d D. apply (W1 (as_elem e)); [|exact D]. rewrite M. apply in_map. exact I. }
  rewrite (total_ext _ (fun l => total (fun nd => dot (length (snd nd)) (p_load l th (fst nd)) (gather (snd nd) X)) (p_nodes l)) (loads S)) in Z.
  2:{ intros l L. rewrite sum_total'. apply total_ext. intros nd N. apply part_work; [exact W| |exact A].
      destruct nd as [nd ds]. apply (W2 l nd ds L N). }
  fold (work_of_points S th X) in Z.
  rewrite (total_ext _ (fun e => dot (length (s_dofs e)) (s_int e th (gather (s_dofs e) X)) (gather (s_dofs e) X)
     + - dot (length (s_dofs e)) (load_of e th (gather (s_dofs e) X)) (gather (s_dofs e) X)) es) in Z.
  2:{ intros e _. unfold dot. rewrite <- sum_opp, <- sum_plus. apply sum_ext. intros k K. cbn. unfold plus_, v0, load_of. ring. }
  rewrite total_plus, total_opp in Z. fold (work_of_forces th es X) (work_of_loads th es X) in Z. lra.
Qed.
(** For linear elements without point loads it is the sum of x' K x, twice the strain energy, and not negative for
    stiffness matrices that are positive semidefinite. *)
Theorem C180_energy_partial : forall S th es X (K : selem -> matrix), well_formed S -> made_of S es ->
  (forall e, In e es -> diag S (s_sub e) = false /\ s_here e = true) -> admissible S X -> loads S = [] ->
  (forall i, (i < n S)%nat -> constrained S i = false -> residual_of S th X i = 0) ->
  (forall e x k, In e es -> (k < length (s_dofs e))%nat -> s_int e th x k = sum (length (s_dofs e)) (fun l => K e k l * x l)) ->
  (forall e x, In e es -> 0 <= sum (length (s_dofs e)) (fun k => sum (length (s_dofs e)) (fun l => x k * K e k l * x l))) ->
  calculate_output S th X = total (fun e => sum (length (s_dofs e)) (fun k => sum (length (s_dofs e)) (fun l =>
     X (dof (s_dofs e) k) * K e k l * X (dof (s_dofs e) l)))) es /\ 0 <= calculate_output S th X.
Proof.
  intros S th es X K W M H A L E Ki P.
  assert (V : calculate_output S th X = total (fun e => sum (length (s_dofs e)) (fun k => sum (length (s_dofs e)) (fun l =>
     X (dof (s_dofs e) k) * K e k l * X (dof (s_dofs e) l)))) es).
  { rewrite (C180_equilibrium S th es X W M H A E). unfold work_of_points. rewrite L. unfold total at 2. cbn [map lsum fold_right].
    rewrite Rminus_0_r. unfold work_of_forces. apply total_ext. intros e I. unfold dot. apply sum_ext. intros k Hk.
    rewrite (Ki e _ k I Hk). rewrite <- sum_scal_r. apply sum_ext. intros l Hl. unfold gather. ring. }
  split; [exact V|]. rewrite V. clear - P. induction es as [|e es IH]; [unfold total; cbn; lra|]. rewrite total_cons.
  pose proof (P e (fun k => X (dof (s_dofs e) k)) (or_introl eq_refl)). specialize (IH (fun e x I => P e x (or_intror I))). lra.
Qed.
(** Point loads are not counted: a structure loaded at points only has compliance zero whatever its displacements. *)
Theorem C180_point_loads_refuted : forall S th es X, made_of S es ->
  (forall e x k, In e es -> s_side e th x k = 0 /\ s_vol e th x k = 0) -> calculate_output S th X = 0.
Proof.
  intros S th es X M Z. rewrite (C180_value S th es X M). unfold work_of_loads. apply total_0. intros e I.
  apply filter_In in I. unfold dot. apply sum_0. intros k K. unfold load_of. destruct (Z e (gather (s_dofs e) X) k (proj1 I)) as [-> ->]. ring.
Qed.

(** ** Derivatives *)
Lemma der_to : forall (f : R -> R) (x a b : R), a = b -> is_derive f x a -> is_derive f x b.
Proof. intros f x a b <- H. exact H. Qed.
Lemma dead_derivative : forall e th f (x : vec), dead e -> load_sensitivity_exact e th f x ->
  output_differentiable th f (as_elem e) x.
Proof.
  intros e th f x D X p dp P0 P1. cbn [edofs as_elem] in *. cbn [e_q e_qp e_qx as_elem].
  eapply (der_fun (fun t : R => sum (length (s_dofs e)) (fun k => - ((s_side e (at_ th f t) x k + s_vol e (at_ th f t) x k) * p t k)))).
  { intros t. rewrite compliance_work. unfold dot. apply sum_ext. intros k K. unfold load_of.
    rewrite (D (at_ th f t) (p t) x k K). ring. }
  eapply der_to.
  2:{ apply (der_sum (length (s_dofs e)) (fun k (t : R) => - ((s_side e (at_ th f t) x k + s_vol e (at_ th f t) x k) * p t k))
        (fun k => - ((s_dside e th f x k + s_dvol e th f x k) * p (th f) k + (s_side e (at_ th f (th f)) x k + s_vol e (at_ th f (th f)) x k) * dp k))).
      intros k K. apply der_opp. apply (der_mult (fun t : R => s_side e (at_ th f t) x k + s_vol e (at_ th f t) x k) (fun t : R => p t k)); [apply X; exact K|apply P1; exact K]. }
  assert (AT : forall k, (k < length (s_dofs e))%nat -> s_side e (at_ th f (th f)) x k + s_vol e (at_ th f (th f)) x k = s_side e th x k + s_vol e th x k).
  { intros k K. replace (at_ th f (th f)) with th; [reflexivity|]. apply FunctionalExtensionality.functional_extensionality.
    intros g. unfold at_. destruct (Nat.eqb_spec g f); subst; reflexivity. }
  unfold compliance_sensitivity, compliance_dX, dot.
  transitivity (- sum (length (s_dofs e)) (fun k => dexternal e th f x k * x k) +
     sum (length (s_dofs e)) (fun k => external e th x k * -1 * dp k)).
  2:{ rewrite (sum_0 (length (s_dofs e)) (fun i => external e th x i * zero i)); [ring|]. intros. unfold zero. ring. }
  rewrite <- sum_opp, <- sum_plus. apply sum_ext. intros k K. rewrite (AT k K), (P0 k K).
  unfold dexternal, external, plus_, v0. ring.
Qed.
(** The partial derivative with respect to the solution and the sensitivity with a solution sensitivity are exact for
    dead loads, along every path of parameter and displacements. *)
Theorem C181_dead_partial : forall e th f x, dead e -> load_sensitivity_exact e th f x ->
  forall (p : R -> vec) (dp : vec),
    (forall k, (k < length (s_dofs e))%nat -> p (th f) k = x k) ->
    (forall k, (k < length (s_dofs e))%nat -> is_derive (fun t : R => p t k) (th f) (dp k)) ->
    is_derive (fun t : R => compliance e (at_ th f t) (p t)) (th f) (compliance_sensitivity e th f x dp) /\
    compliance_sensitivity e th f x dp = compliance_sensitivity e th f x zero
      + sum (length (s_dofs e)) (fun k => compliance_dX e th x k * dp k).
Proof.
  intros e th f x D X p dp P0 P1.
  assert (C : compliance_sensitivity e th f x dp = compliance_sensitivity e th f x zero
      + sum (length (s_dofs e)) (fun k => compliance_dX e th x k * dp k)).
  { unfold compliance_sensitivity, compliance_dX, dot.
    rewrite (sum_0 (length (s_dofs e)) (fun i => external e th x i * zero i)) by (intros; unfold zero; ring).
    rewrite (sum_ext _ (fun k => external e th x k * -1 * dp k) (fun k => - (external e th x k * dp k))) by (intros; ring).
    rewrite sum_opp. ring. }
  split; [|exact C]. rewrite C. apply (dead_derivative e th f x D X p dp P0 P1).
Qed.
(** So direct and adjoint sensitivity analysis give the total derivative of the work of dead loads along the curve of
    equilibria. *)
Theorem C181_total_derivative : forall S th lin adj st X f h U dU dX st1 lam st2 es,
  owned_once S -> well_formed S -> made_of S es -> param_dep S = None ->
  (forall e, In e es -> dead e /\ load_sensitivity_exact e th f (gather (s_dofs e) X)) ->
  (forall d, (d < n S)%nat -> U (th f) d = X d) ->
  (forall d, (d < n S)%nat -> is_derive (fun t : R => U t d) (th f) (dU d)) ->
  equilibrium_path S th f h U ->
  (forall e, In e es -> element_differentiable S th f (as_elem e) (gather (s_dofs e) X)) ->
  (forall l, In l (loads S) -> load_differentiable th f l) ->
  (forall e, In e es -> diag S (s_sub e) = false) ->
  solution st = X ->
  (forall b, solves (n S) (jacobian S th X) b (lin (jacobian S th X) b)) ->
  (forall y, solves (n S) (jacobian S th X) zero y -> forall i, (i < n S)%nat -> y i = 0) ->
  (forall b, solves_tr (n S) (jacobian S th X) b (adj (jacobian S th X) b)) ->
  sensitivity_solve S th lin st X f true = Ok (dX, st1) ->
  adjoint_solve S th adj st X true = (lam, st2) ->
  exists D, calculate_output_adjoint_sensitivity S th X lam f true = Ok D /\
    calculate_output_direct_sensitivity S th f X (Some dX) = D /\
    is_derive (fun t : R => work_of_loads (at_ th f t) (filter (fun e => negb (diag S (s_sub e)) && s_here e) es) (U t)) (th f) D.
Proof.
  intros S th lin adj st X f h U dU dX st1 lam st2 es O W M PD L S1 S2 S3 S4 S5 S7 ES HL NS HT HS HA.
  assert (OD : forall e, In e (elements S) -> output_differentiable th f e (gather (edofs e) X)).
  { intros e I. rewrite M in I. apply in_map_iff in I. destruct I as [s [<- I]]. destruct (L s I). apply dead_derivative; assumption. }
  assert (SP : smooth_problem S th f X h U dU).
  { constructor; auto; intros e I; rewrite M in I; apply in_map_iff in I; destruct I as [s [<- I]].
    - apply S4. exact I.
    - unfold active. cbn. rewrite (S7 s I). reflexivity. }
  assert (DS : dependence_sound S th f X) by (intros d E; congruence).
  assert (NO : no_override S) by (intros d E; congruence).
  assert (OC : forall e, In e (elements S) -> output_consistent th f e (gather (edofs e) X)).
  { intros e I dx. rewrite M in I. apply in_map_iff in I. destruct I as [s [<- I]]. cbn.
    unfold compliance_sensitivity, compliance_dX, dot.
    rewrite (sum_0 (length (s_dofs s)) (fun i => external s th (gather (s_dofs s) X) i * zero i)) by (intros; unfold zero; ring).
    rewrite (sum_ext _ (fun k => external s th (gather (s_dofs s) X) k * -1 * dx k) (fun k => - (external s th (gather (s_dofs s) X) k * dx k))) by (intros; ring).
    rewrite sum_opp. ring. }
  destruct (C110_adjoint_is_total_derivative S th adj st X f h U dU lam st2 O W DS SP ES HT HA) as [D [E DD]].
  destruct (C110_direct_is_total_derivative S th lin st X f h U dU dX st1 O W DS NO OC SP HL NS HS) as [_ DD2].
  assert (EQ : forall t : R, output_of S (at_ th f t) (U t) = work_of_loads (at_ th f t) (filter (fun e => negb (diag S (s_sub e)) && s_here e) es) (U t)).
  { intros t. rewrite <- C108_output. apply C180_value. exact M. }
  exists D. split; [exact E|]. split.
  - exact (der_unique _ _ _ _ DD2 DD).
  - exact (der_fun _ _ _ _ EQ DD).
Qed.
(** Loads that follow the displacements: the derivative misses the tangent of the loads, ... *)
Theorem C181_follower : forall e th x T, load_tangent e th x T ->
  forall (p : R -> vec) (dp : vec),
    (forall k, (k < length (s_dofs e))%nat -> p 0 k = x k) ->
    (forall k, (k < length (s_dofs e))%nat -> is_derive (fun t : R => p t k) 0 (dp k)) ->
    is_derive (fun t : R => compliance e th (p t)) 0
      (sum (length (s_dofs e)) (fun k => compliance_dX e th x k * dp k) -
       sum (length (s_dofs e)) (fun k => sum (length (s_dofs e)) (fun l => T k l * dp l) * x k)).
Proof.
  intros e th x T HT p dp P0 P1.
  eapply (der_fun (fun t : R => sum (length (s_dofs e)) (fun k => - ((s_side e th (p t) k + s_vol e th (p t) k) * p t k)))).
  { intros t. rewrite compliance_work. unfold dot. apply sum_ext. intros k K. unfold load_of. ring. }
  eapply der_to.
  2:{ apply (der_sum (length (s_dofs e)) (fun k (t : R) => - ((s_side e th (p t) k + s_vol e th (p t) k) * p t k))
        (fun k => - (sum (length (s_dofs e)) (fun l => T k l * dp l) * p 0 k + (s_side e th (p 0) k + s_vol e th (p 0) k) * dp k))).
      intros k K. apply der_opp. apply (der_mult (fun t : R => s_side e th (p t) k + s_vol e th (p t) k) (fun t : R => p t k)); [apply (HT p dp P0 P1 k K)|apply P1; exact K]. }
  assert (AT : forall k, (k < length (s_dofs e))%nat -> s_side e th (p 0) k + s_vol e th (p 0) k = s_side e th x k + s_vol e th x k).
  { intros k K.
    (* the loads at two solutions that agree on the element's dofs: use the tangent's continuity along a path that is
       constant on these dofs *)
    pose (r := fun (t : R) => if Req_EM_T t 0 then p 0 else x).
    assert (R0 : forall k, (k < length (s_dofs e))%nat -> r 0 k = x k) by (intros j J; unfold r; destruct (Req_EM_T 0 0); [apply P0; exact J|congruence]).
    assert (R1 : forall k, (k < length (s_dofs e))%nat -> is_derive (fun t : R => r t k) 0 0).
    { intros j J. apply (der_fun (fun _ : R => x j)); [|apply der_const]. intros t. unfold r. destruct (Req_EM_T t 0); [symmetry; apply P0; exact J|reflexivity]. }
    pose proof (HT r (fun _ => 0) R0 R1 k K) as Dr.
    assert (Cr : continuous (fun t : R => s_side e th (r t) k + s_vol e th (r t) k) 0) by (apply (ex_derive_continuous (fun t : R => s_side e th (r t) k + s_vol e th (r t) k) 0); eexists; exact Dr).
    assert (Hr : s_side e th (r 0) k + s_vol e th (r 0) k = s_side e th (p 0) k + s_vol e th (p 0) k) by (unfold r; destruct (Req_EM_T 0 0); [reflexivity|congruence]).
    rewrite <- Hr. clear Hr.
    destruct (Req_EM_T (s_side e th (r 0) k + s_vol e th (r 0) k) (s_side e th x k + s_vol e th x k)) as [Q|Q]; [exact Q|]. exfalso.
    set (c := s_side e th x k + s_vol e th x k) in *. set (g := fun t : R => s_side e th (r t) k + s_vol e th (r t) k) in *.
    assert (Ga : forall t, t <> 0 -> g t = c) by (intros t Ht; unfold g, r; destruct (Req_EM_T t 0); [congruence|reflexivity]).
    assert (Ep : 0 < Rabs (g 0 - c)) by (apply Rabs_pos_lt; unfold g; lra).
    pose proof (proj1 (filterlim_locally g (g 0)) Cr (mkposreal _ Ep)) as [dl Hd].
    specialize (Hd (dl / 2)). assert (Pd := cond_pos dl).
    assert (B : ball 0 dl (dl / 2)) by (unfold ball; cbn; unfold AbsRing_ball, abs, minus, plus, opp; cbn; rewrite Rabs_right; lra).
    specialize (Hd B). unfold ball in Hd. cbn in Hd. unfold AbsRing_ball, abs, minus, plus, opp in Hd. cbn in Hd.
    rewrite Ga in Hd by lra. rewrite <- Rabs_Ropp in Hd. replace (- (c + - g 0)) with (g 0 - c) in Hd by ring. lra. }
  rewrite <- sum_minus. apply sum_ext. intros k K. rewrite (P0 k K), (AT k K). unfold compliance_dX, external, plus_, v0. ring.
Qed.
(** ... e.g. a load proportional to the displacement, whose work is quadratic: the derivative is off by a factor two. *)
Definition follower_elem : selem := mkSel 0 [0%nat] (fun _ x => x) (fun _ _ _ => 0) (fun _ x k => - x k) (fun _ _ _ _ => 0)
  (fun _ _ _ _ => 0) (fun _ _ _ _ => 0) (fun _ _ _ _ => 0) (fun _ _ _ _ => 0) true None (fun _ _ _ _ => 0).
Theorem C181_follower_refuted : exists e th, (forall t, compliance e th (fun _ => t) = t ^ 2) /\
  forall t, t <> 0 -> ~ is_derive (fun s : R => compliance e th (fun _ => s)) t (compliance_dX e th (fun _ => t) 0%nat).
Proof.
  exists follower_elem, (fun _ => 0).
  assert (V : forall t, compliance follower_elem (fun _ => 0) (fun _ => t) = t ^ 2).
  { intros t. unfold compliance, dot, external, plus_, v0. cbn. ring. }
  split; [exact V|]. intros t T D.
  assert (D2 : is_derive (fun s : R => compliance follower_elem (fun _ => 0) (fun _ => s)) t (2 * t)).
  { apply (der_fun (fun s : R => s ^ 2)); [intros; symmetry; apply V|]. eapply der_to; [|apply is_derive_pow; apply is_derive_id]. unfold one. cbn. ring. }
  pose proof (der_unique _ _ _ _ D D2) as Q. unfold compliance_dX, external, plus_, v0 in Q. cbn in Q. lra.
Qed.
(** Topology sensitivity: elements without a side on the level set add nothing; on such a side the work of the
    volume loads that the moving boundary adds. *)
Theorem C181_topology : forall e th x,
  compliance_topology true e th x = Ok (if s_here e then match s_front e with
    | Some s => dot (length (s_dofs e)) (fun k => - s_vfront e s th x k) x | None => 0 end else 0) /\
  compliance_topology false e th x = Fault AssertFailed.
Proof.
  intros e th x. split; [|reflexivity]. unfold compliance_topology. cbn [assert_]. f_equal. destruct (s_here e); [|reflexivity].
  destruct (s_front e); [|reflexivity]. transitivity (- dot (length (s_dofs e)) (plus_ v0 (s_vfront e n th x)) x); [ring|].
  unfold dot. rewrite <- sum_opp. apply sum_ext. intros k K. unfold plus_, v0. ring.
Qed.
(** a spring with a constant load *)
Definition spring_elem : selem := mkSel 0 [0%nat] (fun _ x k => 2 * x k) (fun _ _ _ => 0) (fun th _ _ => - th 0%nat) (fun _ _ _ _ => 2)
  (fun _ _ _ _ => 0) (fun _ _ _ _ => 0) (fun _ f _ _ => if (f =? 0)%nat then -1 else 0) (fun _ _ _ _ => 0) true None (fun _ _ _ _ => 0).
Definition spring_sys : sys := mkSys 1 1 [mkRank [as_elem spring_elem] 0 1] [] (fun _ => false) (fun _ => None) (fun _ => false) None.
Example C180_witness : made_of spring_sys [spring_elem] /\ well_formed spring_sys /\ admissible spring_sys (fun _ => 3) /\
  (forall i, (i < 1)%nat -> residual_of spring_sys (fun _ => 6) (fun _ => 3) i = 0) /\
  calculate_output spring_sys (fun _ => 6) (fun _ => 3) = 18.
Proof.
  split; [reflexivity|]. split; [|split; [|split]].
  - split; [|split]; [|intros l nd ds []|intros d r j c H; discriminate H]. intros e [<-|[]] d [<-|[]]. cbn. lia.
  - intros i r I H. discriminate H.
  - intros i I. assert (i = 0%nat) by lia. subst. unfold residual_of, forces, total. cbn. unfold part, plus_, v0, gather. cbn. lra.
  - rewrite (C180_value _ _ [spring_elem]) by reflexivity. unfold work_of_loads, total. cbn. unfold dot, load_of, gather. cbn. lra.
Qed.
Example C181_witness : dead spring_elem /\ load_sensitivity_exact spring_elem (fun _ => 6) 0%nat (fun _ => 3).
Proof.
  split; [intros th x y k K; reflexivity|]. intros k K. cbn.
  apply (der_fun (fun t : R => - t)); [intros; unfold at_; cbn; ring|].
  eapply der_to; [|apply der_opp; apply is_derive_id]. unfold one. cbn. ring.
Qed.
(** all conditions of C181_total_derivative hold for the spring with its load as parameter: displacement t / 2, work
    t^2 / 2 *)
Example C181_spring : let th : params := fun _ => 6 in let X : vec := fun _ => 3 in let U := fun (t : R) (_ : nat) => t / 2 in
  owned_once spring_sys /\ well_formed spring_sys /\ param_dep spring_sys = None /\
  (forall d, (d < n spring_sys)%nat -> U (th 0%nat) d = X d) /\
  (forall d, (d < n spring_sys)%nat -> is_derive (fun t : R => U t d) (th 0%nat) (1 / 2)) /\
  equilibrium_path spring_sys th 0%nat zero U /\
  (forall x, element_differentiable spring_sys th 0%nat (as_elem spring_elem) x) /\
  (forall b, solves 1 (jacobian spring_sys th X) b (fun _ => b 0%nat / 2)) /\
  (forall b, solves_tr 1 (jacobian spring_sys th X) b (fun _ => b 0%nat / 2)) /\
  (forall y, solves 1 (jacobian spring_sys th X) zero y -> forall i, (i < 1)%nat -> y i = 0).
Proof.
  cbv zeta.
  assert (J : jacobian spring_sys (fun _ => 6) (fun _ => 3) 0%nat 0%nat = 2).
  { unfold jacobian. cbv. lra. }
  set (A := jacobian spring_sys (fun _ => 6) (fun _ => 3)) in *. clearbody A.
  split; [|split; [|split; [|split; [|split; [|split; [|split; [|split; [|split]]]]]]]].
  - intros d D. cbn in D. assert (d = 0%nat) by lia. subst. reflexivity.
  - exact (proj1 (proj2 C180_witness)).
  - reflexivity.
  - intros. lra.
  - intros d D. apply (der_fun (fun t : R => / 2 * t)); [intros; lra|]. eapply der_to; [|apply der_scal; apply is_derive_id]. unfold one. cbn. lra.
  - unfold equilibrium_path. apply filter_forall. intros t. split; [|intros i r I H; discriminate H].
    intros i I _. cbn in I. assert (i = 0%nat) by lia. subst. unfold residual_of, forces, total. cbn. unfold part, plus_, v0, gather, at_. cbn. lra.
  - intros x p dp P0 P1 k K. cbn in K. assert (k = 0%nat) by lia. subst. cbn. unfold plus_, v0, dres_of. cbn.
    eapply (der_fun (fun t : R => 2 * p t 0%nat + -1 * t)); [intros t; unfold at_; cbn; ring|].
    eapply der_to; [|apply der_plus; [apply der_scal; apply P1; cbn; lia|apply der_scal; apply is_derive_id]]. unfold plus_, v0, one. cbn. ring.
  - intros b i I. assert (i = 0%nat) by lia. subst. cbn. rewrite J. lra.
  - intros b i I. assert (i = 0%nat) by lia. subst. cbn. rewrite J. lra.
  - intros y Y i I. assert (i = 0%nat) by lia. subst. specialize (Y 0%nat I). cbn in Y. rewrite J in Y. unfold zero in Y. lra.
Qed.
Print Assumptions C180_equilibrium.
Print Assumptions C181_total_derivative.
Print Assumptions C181_follower.
