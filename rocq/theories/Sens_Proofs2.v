From Coq Require Import Reals Lra.
From Coquelicot Require Import Coquelicot.
From Coq Require Import List Arith Bool Permutation Lia FunctionalExtensionality.
From Verif Require Import Base BaseLemmas Sens_Model Sens_Spec Sens_Proofs.
Import ListNotations.
Open Scope R_scope.

Lemma der_ext (f g : R -> R) (x d d' : R) : (forall t, g t = f t) -> d' = d -> is_derive f x d -> is_derive g x d'.
Proof. intros H -> D. eapply is_derive_ext; [|exact D]. intros; now rewrite H. Qed.
Lemma der_sum m (f : nat -> R -> R) (d : nat -> R) (x : R) :
  (forall k, (k < m)%nat -> is_derive (f k) x (d k)) ->
  is_derive (fun t => sum m (fun k => f k t)) x (sum m d).
Proof.
  induction m as [|m IH]; intros H.
  - cbn. apply @is_derive_const.
  - cbn [sum]. apply (is_derive_plus (fun t => sum m (fun k => f k t)) (f m)).
    + apply IH. intros; apply H; lia.
    + apply H; lia.
Qed.
Lemma der_total {A} (l : list A) (f : A -> R -> R) (d : A -> R) (x : R) :
  (forall a, In a l -> is_derive (f a) x (d a)) ->
  is_derive (fun t => total (fun a => f a t) l) x (total d l).
Proof.
  induction l as [|a l IH]; intros H.
  - cbn. apply @is_derive_const.
  - rewrite total_cons.
    apply (der_ext (fun t => plus (f a t) (total (fun a => f a t) l)) _ x (plus (d a) (total d l)));
      [reflexivity|reflexivity|].
    apply @is_derive_plus.
    + apply H; now left.
    + apply IH. intros; apply H; now right.
Qed.
Lemma der_scal (c : R) (f : R -> R) (x d : R) : is_derive f x d -> is_derive (fun t => c * f t) x (c * d).
Proof. apply @is_derive_scal. Qed.
Lemma der_minus (f g : R -> R) (x a b : R) : is_derive f x a -> is_derive g x b ->
  is_derive (fun t => f t - g t) x (a - b).
Proof. apply @is_derive_minus. Qed.
Lemma der_part S ds (v : R -> vec) (d : vec) i (x : R) :
  (forall k, (k < length ds)%nat -> is_derive (fun t => v t k) x (d k)) ->
  is_derive (fun t => part S ds (v t) i) x (part S ds d i).
Proof.
  intros H. unfold part. apply (der_sum (length ds) (fun k t => coef S (dof ds k) i * v t k)).
  intros k Hk. apply der_scal, H, Hk.
Qed.
Lemma der_unique (f : R -> R) (x a b : R) : is_derive f x a -> is_derive f x b -> a = b.
Proof. intros A B. apply is_derive_unique in A. apply is_derive_unique in B. congruence. Qed.
Lemma der_near (f g : R -> R) (x d : R) : locally x (fun t => f t = g t) -> is_derive g x d -> is_derive f x d.
Proof.
  intros L D. eapply is_derive_ext_loc; [|exact D].
  eapply filter_imp; [|exact L]. intros t H. cbv beta in H |- *. now symmetry.
Qed.

Section J.
Variables (S : sys) (th : params).
Hypothesis W : well_formed S.

Lemma coef_constrained d j : (d < n S)%nat -> constrained S j = true -> coef S d j = 0.
Proof.
  intros Hd Hj. unfold coef, constrained in *. destruct (row S d) as [r|] eqn:Er.
  - apply (total_0 (fun e => if (fst e =? j)%nat then snd e else 0)). intros [a c] Ha. cbn.
    destruct (Nat.eqb_spec a j); auto. subst. destruct W as (_ & _ & W3).
    destruct (W3 d r j c Er Ha) as [_ E]. rewrite E in Hj. discriminate.
  - destruct (Nat.eqb_spec d j); auto. subst. rewrite Er in Hj. discriminate.
Qed.
Lemma coef_sum y d : (d < n S)%nat -> sum (n S) (fun j => coef S d j * y j) = enforce S y d.
Proof.
  intros Hd. rewrite <- coef_dot by auto. apply sum_ext. intros j Hj.
  destruct (constrained S j) eqn:E; auto. rewrite coef_constrained by auto. ring.
Qed.
(** one row of the assembled Jacobian times a vector *)
Lemma jac_row X y i : (i < n S)%nat ->
  sum (n S) (fun j => jacobian S th X i j * y j) =
  if constrained S i
  then total (fun e => if existsb (Nat.eqb i) (edofs e) then y i - enforce S y i else 0) (elements S)
  else total (fun e => part S (edofs e) (fun k => sum (length (edofs e))
         (fun l => emat S th X e k l * enforce S y (dof (edofs e) l))) i) (elements S).
Proof.
  intros Hi.
  transitivity (total (fun e => sum (n S) (fun j => mctr S (edofs e) (emat S th X e) i j * y j)) (elements S)).
  { rewrite total_sum. apply sum_ext. intros j _. rewrite jacobian_eq.
    rewrite Rmult_comm, <- total_scal. apply total_ext. intros; ring. }
  destruct (constrained S i) eqn:Ci.
  - apply total_ext. intros e _. unfold mctr. rewrite Ci. destruct (existsb (Nat.eqb i) (edofs e)).
    + rewrite <- (coef_sum y i Hi).
      transitivity (sum (n S) (fun j => (if (i =? j)%nat then y j else 0) - coef S i j * y j)).
      * apply sum_ext. intros j Hj. destruct (Nat.eqb_spec i j).
        -- subst j. rewrite (coef_constrained i i) by auto. ring.
        -- ring.
      * rewrite sum_minus. f_equal. rewrite (sum_single (n S) i); auto.
        -- now rewrite Nat.eqb_refl.
        -- intros k _ Hk. destruct (Nat.eqb_spec i k); congruence || auto.
    + apply sum_0. intros; ring.
  - apply total_ext. intros e He. unfold mctr. rewrite Ci. unfold part.
    assert (D : forall d, In d (edofs e) -> (d < n S)%nat) by (intros; now apply (proj1 W e)).
    transitivity (sum (n S) (fun j => sum (length (edofs e)) (fun k => sum (length (edofs e)) (fun l =>
       coef S (dof (edofs e) k) i * emat S th X e k l * (coef S (dof (edofs e) l) j * y j))))).
    { apply sum_ext. intros j _. rewrite <- sum_scal_r. apply sum_ext. intros k _.
      rewrite <- sum_scal_r. apply sum_ext. intros; ring. }
    rewrite sum_swap. apply sum_ext. intros k Hk. rewrite sum_swap.
    rewrite <- sum_scal_l. apply sum_ext. intros l Hl. rewrite sum_scal_l.
    rewrite coef_sum; [ring|]. apply D, nth_In; auto.
Qed.

Lemma enforce_adm y d : admissible S y -> (d < n S)%nat -> enforce S y d = y d.
Proof.
  intros A Hd. unfold enforce. destruct (row S d) as [r|] eqn:Er; auto.
  rewrite (A d r Hd Er). reflexivity.
Qed.
Lemma sum_diag m c (y : vec) k : (k < m)%nat -> sum m (fun l => ident c k l * y l) = c * y k.
Proof.
  intros Hk. rewrite (sum_single m k); auto.
  - unfold ident. rewrite Nat.eqb_refl. ring.
  - intros l _ Hl. unfold ident. destruct (Nat.eqb_spec k l); [congruence|ring].
Qed.
(** an admissible direction: internal derivative plus the blanked-out part *)
Lemma jac_adm X y i : (i < n S)%nat -> admissible S y ->
  sum (n S) (fun j => jacobian S th X i j * y j) =
  if constrained S i then 0
  else total (fun e => part S (edofs e) (fun k => sum (length (edofs e))
         (fun l => e_jac e th (gather (edofs e) X) k l * y (dof (edofs e) l))) i) (filter (active S) (elements S))
       + blanked S y i.
Proof.
  intros Hi A. rewrite jac_row by auto. destruct (constrained S i).
  - apply total_0. intros e _. rewrite enforce_adm by auto. destruct (existsb _ _); ring.
  - unfold blanked. rewrite <- total_scal, !total_filter, <- total_plus. apply total_ext. intros e He.
    assert (D : forall d, In d (edofs e) -> (d < n S)%nat) by (intros; now apply (proj1 W e)).
    assert (Q : forall l, (l < length (edofs e))%nat -> enforce S y (dof (edofs e) l) = y (dof (edofs e) l))
      by (intros; apply enforce_adm; auto; apply D, nth_In; auto).
    unfold emat, active. destruct (diag S (subdom e)); cbn [negb].
    + rewrite Rplus_0_l. unfold part. rewrite <- sum_scal_l. apply sum_ext. intros k Hk.
      rewrite (sum_ext _ _ (fun l => ident (/ 10 ^ 24) k l * y (dof (edofs e) l))) by (intros; now rewrite Q).
      rewrite (sum_diag _ _ (fun l => y (dof (edofs e) l))) by auto. unfold gather. ring.
    + rewrite Rplus_0_r. unfold part. apply sum_ext. intros k Hk. f_equal. apply sum_ext. intros; now rewrite Q.
Qed.

(** derivative of the assembled residual along an admissible direction *)
Lemma residual_derive X y i : (i < n S)%nat -> admissible S y -> constrained S i = false ->
  (forall e, In e (elements S) -> active S e = true -> jacobian_consistent th e (gather (edofs e) X)) ->
  is_derive (fun t => residual_of S th (fun d => X d + t * y d) i) 0
    (sum (n S) (fun j => jacobian S th X i j * y j) - blanked S y i).
Proof.
  intros Hi A Ci J. rewrite jac_adm, Ci by auto. unfold residual_of.
  apply (der_ext (fun t => total (fun e => part S (edofs e) (e_res e th (gather (edofs e) (fun d => X d + t * y d))) i)
       (filter (active S) (elements S)) - forces S (fun l => p_load l th) i) _ 0
     (total (fun e => part S (edofs e) (fun k => sum (length (edofs e))
         (fun l => e_jac e th (gather (edofs e) X) k l * y (dof (edofs e) l))) i) (filter (active S) (elements S)) - 0));
    [reflexivity|ring|].
  apply der_minus; [|apply @is_derive_const].
  apply (der_total _ (fun e t => part S (edofs e) (e_res e th (gather (edofs e) (fun d => X d + t * y d))) i)).
  intros e He. apply filter_In in He. apply der_part. intros k Hk.
  apply (J e (proj1 He) (proj2 He) (fun t => gather (edofs e) (fun d => X d + t * y d))
           (fun l => y (dof (edofs e) l))); auto.
  - intros j _. unfold gather. ring.
  - intros j _. unfold gather.
    apply (der_ext (fun t => plus (X (dof (edofs e) j)) (scal t (y (dof (edofs e) j)))) _ 0
       (plus 0 (scal 1 (y (dof (edofs e) j))))); [reflexivity| |].
    + unfold plus, scal; cbn. unfold mult; cbn. ring.
    + apply @is_derive_plus; [apply @is_derive_const|]. apply @is_derive_scal_l. apply @is_derive_id.
Qed.

(** the derivative of the equilibrium path solves the sensitivity equation *)
Section Path.
Variables (f : nat) (X : vec) (h : vec) (U : R -> vec) (dU : vec).
Hypothesis Uat : forall d, (d < n S)%nat -> U (th f) d = X d.
Hypothesis Uder : forall d, (d < n S)%nat -> is_derive (fun t => U t d) (th f) (dU d).
Hypothesis Ueq : equilibrium_path S th f h U.
Hypothesis Jel : forall e, In e (elements S) -> active S e = true ->
  element_differentiable S th f e (gather (edofs e) X).
Hypothesis Jld : forall l, In l (loads S) -> load_differentiable th f l.

Lemma path_adm : admissible S dU.
Proof.
  intros i r Hi Hr. pose proof (Uder i Hi) as D.
  eapply der_unique; [exact D|].
  apply (der_near _ (fun t => total (fun e => snd e * U t (fst e)) r + h i)).
  - eapply filter_imp; [|exact Ueq]. intros t [_ H]. cbv beta. now apply H.
  - apply (der_ext (fun t => plus (total (fun e => snd e * U t (fst e)) r) (h i)) _ (th f)
       (plus (total (fun e => snd e * dU (fst e)) r) 0)); [reflexivity|unfold plus; cbn; ring|].
    apply @is_derive_plus; [|apply @is_derive_const].
    apply (der_total r (fun e t => snd e * U t (fst e))). intros [j c] Hj. apply der_scal, Uder.
    destruct W as (_ & _ & W3). now destruct (W3 i r j c Hr Hj).
Qed.
Lemma edof_lt e k : In e (elements S) -> (k < length (edofs e))%nat -> (dof (edofs e) k < n S)%nat.
Proof. intros He Hk. apply (proj1 W e He). now apply nth_In. Qed.

Lemma path_residual i : (i < n S)%nat -> constrained S i = false ->
  total (fun e => part S (edofs e) (fun k => sum (length (edofs e))
         (fun l => e_jac e th (gather (edofs e) X) k l * dU (dof (edofs e) l))) i) (filter (active S) (elements S))
  + dresidual_of S th f X i = 0.
Proof.
  intros Hi Ci.
  assert (D : is_derive (fun t => residual_of S (at_ th f t) (U t) i) (th f)
    (total (fun e => part S (edofs e) (fun k => sum (length (edofs e))
         (fun l => e_jac e th (gather (edofs e) X) k l * dU (dof (edofs e) l)) +
          dres_of S th f e (gather (edofs e) X) k) i) (filter (active S) (elements S))
     - forces S (fun l => p_dload l th f) i)).
  { unfold residual_of. apply der_minus.
    - apply (der_total _ (fun e t => part S (edofs e) (e_res e (at_ th f t) (gather (edofs e) (U t))) i)).
      intros e He. apply filter_In in He. destruct He as [He Ha]. apply der_part. intros k Hk.
      apply (Jel e He Ha (fun t => gather (edofs e) (U t)) (fun l => dU (dof (edofs e) l))); auto.
      + intros j Hj. apply Uat. now apply edof_lt.
      + intros j Hj. apply Uder. now apply edof_lt.
    - unfold forces. apply (der_total (loads S) (fun l t => total (fun nd => part S (snd nd) (p_load l (at_ th f t) (fst nd)) i) (p_nodes l))).
      intros l Hl. apply (der_total (p_nodes l) (fun nd t => part S (snd nd) (p_load l (at_ th f t) (fst nd)) i)).
      intros [nd ds] Hn. apply der_part. intros k Hk. exact (Jld l Hl nd ds k Hn Hk). }
  assert (Z : is_derive (fun t => residual_of S (at_ th f t) (U t) i) (th f) 0).
  { apply (der_near _ (fun _ => 0)).
    - eapply filter_imp; [|exact Ueq]. intros t [H _]. cbv beta. apply H; auto.
      unfold constrained in Ci. destruct (row S i); [discriminate|reflexivity].
    - apply @is_derive_const. }
  pose proof (der_unique _ _ _ _ D Z) as E. rewrite <- E. unfold dresidual_of.
  match goal with |- ?a + (?b - ?c) = _ => transitivity ((a + b) - c); [ring|] end. f_equal.
  rewrite <- total_plus. apply total_ext. intros e _. unfold part. rewrite <- sum_plus.
  apply sum_ext. intros; ring.
Qed.
Hypothesis Act : forall e, In e (elements S) -> active S e = true.
Lemma no_blank y i : blanked S y i = 0.
Proof.
  unfold blanked. rewrite total_filter, total_0; [ring|]. intros e He.
  specialize (Act e He). unfold active in Act. destruct (diag S (subdom e)); [discriminate|reflexivity].
Qed.
Lemma path_solves i : (i < n S)%nat ->
  sum (n S) (fun j => jacobian S th X i j * dU j) =
  - (if constrained S i then 0 else dresidual_of S th f X i).
Proof.
  intros Hi. rewrite (jac_adm X dU i Hi path_adm). destruct (constrained S i) eqn:Ci; [ring|].
  rewrite no_blank. pose proof (path_residual i Hi Ci). lra.
Qed.
Hypothesis Qel : forall e, In e (elements S) -> output_differentiable th f e (gather (edofs e) X).
Lemma path_output :
  is_derive (fun t => output_of S (at_ th f t) (U t)) (th f)
    (total (fun e => e_qp e th f (gather (edofs e) X) zero) (filter (counted S) (elements S)) +
     total (fun e => sum (length (edofs e)) (fun k => e_qx e th (gather (edofs e) X) k * dU (dof (edofs e) k)))
       (filter (counted S) (elements S))).
Proof.
  rewrite <- total_plus. unfold output_of.
  apply (der_total _ (fun e t => e_q e (at_ th f t) (gather (edofs e) (U t)))).
  intros e He. apply filter_In in He. destruct He as [He _].
  apply (Qel e He (fun t => gather (edofs e) (U t)) (fun l => dU (dof (edofs e) l))).
  - intros j Hj. apply Uat. now apply edof_lt.
  - intros j Hj. apply Uder. now apply edof_lt.
Qed.
End Path.
End J.

(** partial sensitivity with a sound dependence object *)
Lemma partial_total S th f X : dependence_sound S th f X ->
  calculate_output_direct_sensitivity S th f X None =
  total (fun e => e_qp e th f (gather (edofs e) X) zero) (filter (counted S) (elements S)).
Proof.
  intros D. rewrite outs_eq, !total_filter. apply total_ext. intros e He.
  destruct (counted S e); cbn [andb]; auto. unfold oskipped. destruct (param_dep S) as [d|] eqn:Ed; auto.
  destruct (depends d e f) eqn:Df; auto. cbn. destruct (D d Ed e He Df) as [_ D2]. now rewrite D2.
Qed.
Lemma dot_opp_l m a b : dot m (fun i => a i * -1) b = - dot m a b.
Proof. unfold dot. rewrite <- sum_opp. apply sum_ext; intros; ring. Qed.
Lemma dot_comm m a b : dot m a b = dot m b a.
Proof. apply sum_ext; intros; ring. Qed.
(** lambda . (A x) = (A^T lambda) . x *)
Lemma dot_transpose m (A : matrix) (l x a b : vec) :
  solves_tr m A a l -> solves m A b x -> dot m l b = dot m a x.
Proof.
  intros HL HX. unfold dot.
  transitivity (sum m (fun i => sum m (fun j => l i * A i j * x j))).
  - apply sum_ext. intros i Hi. rewrite <- HX by auto. rewrite <- sum_scal_l. apply sum_ext; intros; ring.
  - rewrite sum_swap. apply sum_ext. intros j Hj. rewrite <- HL by auto. rewrite <- sum_scal_r.
    apply sum_ext; intros; ring.
Qed.
(** the rows of constrained dofs do not matter for the product with the residual sensitivity *)
Lemma dot_enforce S lam g : (forall i, (i < n S)%nat -> constrained S i = true -> g i = 0) ->
  dot (n S) (enforce S lam) g = dot (n S) lam g.
Proof.
  intros H. apply dot_ext. intros i Hi. unfold enforce. destruct (row S i) eqn:E; auto.
  rewrite H; auto; [ring|]. unfold constrained. now rewrite E.
Qed.
Lemma enforce_idem S x d : well_formed S -> enforce S (enforce S x) d = enforce S x d.
Proof.
  intros (_ & _ & W). unfold enforce at 1 3. destruct (row S d) as [r|] eqn:Er.
  - f_equal. apply map_ext_in. intros [j c] Hj. cbn. destruct (W d r j c Er Hj) as [_ E].
    unfold enforce. now rewrite E.
  - unfold enforce. now rewrite Er.
Qed.
Lemma enforce_ext S x y d : well_formed S -> (d < n S)%nat ->
  (forall i, (i < n S)%nat -> x i = y i) -> enforce S x d = enforce S y d.
Proof.
  intros (_ & _ & W) Hd E. unfold enforce. destruct (row S d) as [r|] eqn:Er; auto.
  f_equal. apply map_ext_in. intros [j c] Hj. cbn. destruct (W d r j c Er Hj) as [Hl _]. now rewrite E.
Qed.
