(** Proofs about the assembly of a time step: it is the assembly of area Sens for elements that see the unknowns of the
    step only. *)
From Coq Require Import Reals.
From Coquelicot Require Import Coquelicot.
From Coq Require Import List Arith Bool Permutation Lia Lra.
From Verif Require Import Base BaseLemmas Sens_Model Sens_Spec Sens_Proofs Sens_Proofs2 Mph_Model Mph_Spec.
Import ListNotations.
Open Scope R_scope.

(** the element of a step as a static element *)
Definition as_elem (sc : scheme) (prev : quants) (e : telem) : elem :=
  mkElem 0 (tdofs e) (fun th x => t_res e th (step_state sc prev (tdofs e) x))
    (fun th x => t_jac e th (step_state sc prev (tdofs e) x)) (fun _ _ _ _ => 0) (fun _ _ _ _ => 0) false
    (fun _ _ => 0) (fun _ _ _ => 0) (fun _ _ _ _ => 0).
Definition as_sys (T : tsys) (prev : quants) : sys :=
  mkSys (n (t_cons T)) (n_vars (t_cons T))
    (map (fun rk => mkRank (map (as_elem (t_scheme T) prev) rk) 0 0) (t_ranks T)) [] (fun _ => false) (row (t_cons T))
    (fun _ => false) None.

Lemma as_elements T prev : elements (as_sys T prev) = map (as_elem (t_scheme T) prev) (step_elems T).
Proof.
  unfold elements, step_elems, as_sys. cbn [ranks]. rewrite flat_map_concat_map, map_map, concat_map. reflexivity.
Qed.
Lemma as_ok T prev : step_ok T -> well_formed (as_sys T prev).
Proof.
  intros [A B]. split; [|split].
  - rewrite as_elements. intros e He d Hd. apply in_map_iff in He. destruct He as (t & <- & Ht). exact (A t d Ht Hd).
  - intros l nd ds [].
  - exact B.
Qed.
Lemma coef_as T prev d i : coef (as_sys T prev) d i = coef (t_cons T) d i.
Proof. reflexivity. Qed.
Lemma part_as T prev ds v i : part (as_sys T prev) ds v i = part (t_cons T) ds v i.
Proof. reflexivity. Qed.

Section Step.
Variables (T : tsys) (th : params).
Notation C := (t_cons T).
Lemma over_vec (step : vec -> telem -> vec) (c : telem -> nat -> R) :
  (forall g e i, step g e i = g i + c e i) ->
  forall i, over T step zero i = total (fun e => c e i) (step_elems T).
Proof.
  intros H i. unfold over, step_elems.
  rewrite (fold_vec _ (fun rk i => total (fun e => c e i) rk)).
  - unfold zero. rewrite Rplus_0_l. induction (t_ranks T) as [|r l IH]; [reflexivity|].
    rewrite total_cons, IH. cbn [concat]. now rewrite total_app.
  - intros g rk j. now rewrite (fold_vec _ c).
Qed.
Lemma res_at prev X i : over T (ta_res_elem T th (quantities T prev X)) zero i
  = if constrained C i then 0 else step_residual T th prev X i.
Proof.
  rewrite (over_vec _ (fun e i => ctr C (tdofs e) (t_res e th (qgather (tdofs e) (quantities T prev X))) i))
    by (intros; apply add_vector_eq).
  unfold ctr. destruct (constrained C i); [apply total_0; auto|]. reflexivity.
Qed.
Lemma jac_at prev X i j : over T (ta_jac_elem T th (quantities T prev X)) mzero i j
  = jacobian (as_sys T prev) th X i j.
Proof.
  rewrite jacobian_eq, as_elements. unfold over.
  rewrite (fold_mat _ (fun rk i j => total (fun e => mctr C (tdofs e) (t_jac e th (qgather (tdofs e) (quantities T prev X))) i j) rk)).
  - unfold mzero. rewrite Rplus_0_l. unfold step_elems. induction (t_ranks T) as [|r l IH]; [reflexivity|].
    rewrite total_cons, IH. cbn [concat]. rewrite map_app, total_app. f_equal.
    unfold total. rewrite map_map. reflexivity.
  - intros g rk a b. apply (fold_mat _ (fun e i j => mctr C (tdofs e) (t_jac e th (qgather (tdofs e) (quantities T prev X))) i j)).
    reflexivity.
Qed.
Lemma residual_of_as prev X i : residual_of (as_sys T prev) th X i = step_residual T th prev X i.
Proof.
  unfold residual_of, step_residual. rewrite as_elements.
  replace (filter (active (as_sys T prev)) (map (as_elem (t_scheme T) prev) (step_elems T)))
    with (map (as_elem (t_scheme T) prev) (step_elems T)).
  - unfold forces. cbn. unfold total. rewrite map_map. cbn. rewrite Rminus_0_r. reflexivity.
  - induction (step_elems T); cbn; [reflexivity|]. f_equal. auto.
Qed.
Lemma blanked_as prev y i : blanked (as_sys T prev) y i = 0.
Proof.
  unfold blanked. replace (filter _ _) with (@nil elem); [cbn; ring|].
  induction (elements (as_sys T prev)); cbn; auto.
Qed.
Lemma jac_derive prev X y i : step_ok T -> (i < n C)%nat -> admissible C y -> row C i = None ->
  (forall e, In e (step_elems T) -> step_jacobian th (t_scheme T) prev e (gather (tdofs e) X)) ->
  is_derive (fun t => step_residual T th prev (fun d => X d + t * y d) i) 0
    (sum (n C) (fun j => over T (ta_jac_elem T th (quantities T prev X)) mzero i j * y j)).
Proof.
  intros O Hi A E J.
  apply (der_ext (fun t => residual_of (as_sys T prev) th (fun d => X d + t * y d) i) _ 0
    (sum (n (as_sys T prev)) (fun j => jacobian (as_sys T prev) th X i j * y j) - blanked (as_sys T prev) y i)).
  - intros t. symmetry. apply residual_of_as.
  - rewrite blanked_as, Rminus_0_r. apply sum_ext. intros j _. now rewrite jac_at.
  - apply residual_derive; auto.
    + now apply as_ok.
    + unfold constrained. change (row (as_sys T prev) i) with (row C i). now rewrite E.
    + rewrite as_elements. intros e He _. apply in_map_iff in He. destruct He as (t & <- & Ht). exact (J t Ht).
Qed.
Lemma lin_at prev X dX i : over T (ta_lin_elem T th (quantities T prev X) (perturbed T dX)) zero i
  = if constrained C i then 0 else
    total (fun e => part C (tdofs e) (t_lin e th (step_state (t_scheme T) prev (tdofs e) (gather (tdofs e) X))
       (fun m a => al (t_scheme T) m * gather (tdofs e) dX a)) i) (step_elems T).
Proof.
  rewrite (over_vec _ (fun e i => ctr C (tdofs e) (t_lin e th (qgather (tdofs e) (quantities T prev X))
     (qgather (tdofs e) (perturbed T dX))) i)) by (intros; apply add_vector_eq).
  unfold ctr. destruct (constrained C i); [apply total_0; auto|]. reflexivity.
Qed.
Lemma part_ext ds v w i : (forall k, (k < length ds)%nat -> v k = w k) -> part C ds v i = part C ds w i.
Proof. intros H. apply sum_ext. intros k Hk. now rewrite H. Qed.
Lemma admissible_enforce y d : admissible C y -> (d < n C)%nat -> enforce C y d = y d.
Proof. intros A Hd. unfold enforce. destruct (row C d) eqn:E; auto. symmetry. exact (A d l Hd E). Qed.
Lemma product_at prev X dX i : step_ok T -> (i < n C)%nat -> admissible C dX ->
  (forall e, In e (step_elems T) -> step_product th (t_scheme T) prev e (gather (tdofs e) X)) ->
  linearized_product T th prev X dX i
  = sum (n C) (fun j => over T (ta_jac_elem T th (quantities T prev X)) mzero i j * dX j).
Proof.
  intros O Hi A P. unfold linearized_product. rewrite lin_at.
  rewrite (sum_ext (n C) _ (fun j => jacobian (as_sys T prev) th X i j * dX j)) by (intros; now rewrite jac_at).
  change (n C) with (n (as_sys T prev)). rewrite jac_row by (auto using as_ok).
  change (constrained (as_sys T prev) i) with (constrained C i). rewrite as_elements.
  destruct (constrained C i) eqn:Ec.
  - symmetry. apply total_0. intros e He. destruct (existsb _ _); auto.
    change (enforce (as_sys T prev) dX i) with (enforce C dX i). rewrite admissible_enforce by auto. ring.
  - unfold total. rewrite map_map. apply total_ext. intros e He. rewrite part_as. cbn [edofs as_elem].
    apply part_ext. intros k Hk. rewrite (P e He (gather (tdofs e) dX) k Hk). apply sum_ext. intros l Hl.
    cbn. f_equal. symmetry. change (enforce C dX (dof (tdofs e) l) = dX (dof (tdofs e) l)).
    apply admissible_enforce; auto. apply (proj1 O e); auto. unfold dof. now apply nth_In.
Qed.
Lemma sens_at f prev dprev X i : sensitivity_assemble T th f prev dprev X i
  = if constrained C i then 0 else
    total (fun e => part C (tdofs e) (fun k =>
       t_dres e th f (step_state (t_scheme T) prev (tdofs e) (gather (tdofs e) X)) k
       + t_prev e th (step_state (t_scheme T) prev (tdofs e) (gather (tdofs e) X))
           (fun m a => dprev m (dof (tdofs e) a)) k) i) (step_elems T).
Proof.
  unfold sensitivity_assemble.
  rewrite (over_vec _ (fun e i => ctr C (tdofs e) (fun k =>
       t_dres e th f (qgather (tdofs e) (quantities T prev X)) k
       + t_prev e th (qgather (tdofs e) (quantities T prev X)) (qgather (tdofs e) dprev) k) i))
    by (intros; apply add_vector_eq).
  unfold ctr. destruct (constrained C i); [apply total_0; auto|]. reflexivity.
Qed.
End Step.
