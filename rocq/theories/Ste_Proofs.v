From Coq Require Import Reals.
From Coq Require Import List Arith Bool Lia Lra FunctionalExtensionality.
From Verif Require Import Base BaseLemmas Trans_Model Trans_Spec Trans_Proofs Ste_Model Ste_Spec.
Import ListNotations.
Open Scope R_scope.

Lemma second_sum e th x v a i : c2_fm (second_calc e th true x v a) i + c2_fx (second_calc e th true x v vzero) i = motion e th x v a i.
Proof. cbv [second_calc c2_fm c2_fx vadd vzero motion]; ring. Qed.
Lemma first_sum e th x v i : c1_fm (first_calc e th true x v) i + c1_fx (first_calc e th true x v) i = creep e th x v i.
Proof. cbv [first_calc c1_fm c1_fx vadd vzero creep]; ring. Qed.

Lemma motion_rate e th x v a dx dv da i : exact_elem e th -> (i < se_n e)%nat ->
  derivable_pt_lim (fun s => motion e th (along x dx s) (along v dv s) (along a da s) i) 0
    (sum (se_n e) (fun j => c2_mxdd (second_calc e th true x v a) i j * da j +
       (c2_mxd (second_calc e th true x v a) i j + c2_xxd (second_calc e th true x v vzero) i j) * dv j +
       (c2_mx (second_calc e th true x v a) i j + c2_xx (second_calc e th true x v vzero) i j) * dx j)).
Proof.
  intros (Hi & Hd & Hs & Hv & Hm) Li.
  pose proof (derivable_pt_lim_plus _ _ _ _ _ (derivable_pt_lim_plus _ _ _ _ _ (derivable_pt_lim_plus _ _ _ _ _
    (derivable_pt_lim_plus _ _ _ _ _ (Hm x v a dx dv da i Li) (Hd x v dx dv i Li)) (Hi x dx i Li)) (Hs x v dx dv i Li)) (Hv x v dx dv i Li)) as H.
  rewrite <- !sum_plus in H.
  match type of H with derivable_pt_lim ?f _ ?l =>
    change (fun s => motion e th (along x dx s) (along v dv s) (along a da s) i) with f; replace (sum (se_n e) _) with l; [exact H|] end.
  apply sum_ext; intros j _. cbv [second_calc c2_mxdd c2_mxd c2_mx c2_xxd c2_xx madd_if madd mnull]. ring.
Qed.
Lemma creep_rate e th x v dx dv i : exact_elem e th -> (i < se_n e)%nat ->
  derivable_pt_lim (fun s => creep e th (along x dx s) (along v dv s) i) 0
    (sum (se_n e) (fun j => c1_mxd (first_calc e th true x v) i j * dv j +
       (c1_mx (first_calc e th true x v) i j + c1_xx (first_calc e th true x v) i j) * dx j)).
Proof.
  intros (Hi & Hd & Hs & Hv & Hm) Li.
  pose proof (derivable_pt_lim_plus _ _ _ _ _ (derivable_pt_lim_plus _ _ _ _ _ 
    (derivable_pt_lim_plus _ _ _ _ _ (Hd x v dx dv i Li) (Hi x dx i Li)) (Hs x v dx dv i Li)) (Hv x v dx dv i Li)) as H.
  rewrite <- !sum_plus in H.
  match type of H with derivable_pt_lim ?f _ ?l =>
    change (fun s => creep e th (along x dx s) (along v dv s) i) with f; replace (sum (se_n e) _) with l; [exact H|] end.
  apply sum_ext; intros j _. cbv [first_calc c1_mxd c1_mx c1_xx madd_if madd mnull]. ring.
Qed.

Lemma dlim_ext f g x l l' : (forall s, f s = g s) -> l = l' -> derivable_pt_lim f x l -> derivable_pt_lim g x l'.
Proof. intros E -> H. replace g with f; [exact H|]. apply functional_extensionality, E. Qed.

Lemma second_ops_jacobian e th beta gamma am af dt h X : exact_elem e th ->
  is_jacobian (second_ops e th) (second_residual beta gamma am af dt (second_ops e th) h)
    (second_jacobian beta gamma am af dt (second_ops e th) h X) X.
Proof.
  intros HE D i Li. change (nd (second_ops e th)) with (se_n e) in *.
  set (E := second_ops e th).
  set (k := Second beta gamma).
  pose proof (motion_rate e th (local E (blend af X (hx h 1%nat)))
    (local E (blend af (update_velocity k dt (hx h 1%nat) (hv h 1%nat) (ha h 1%nat) X) (hv h 1%nat)))
    (local E (blend am (update_acceleration k dt (hx h 1%nat) (hv h 1%nat) (ha h 1%nat) X) (ha h 1%nat)))
    (local E (scalev (1 - af) D)) (local E (scalev (1 - af) (update_delta_velocity k dt D)))
    (local E (scalev (1 - am) (update_delta_acceleration k dt D))) i HE Li) as H.
  eapply dlim_ext; [| |exact H].
  - intros s. unfold second_residual. fold k. rewrite vel_along, acc_along, !blend_along, !local_along.
    cbv [E second_ops fm fx]. rewrite second_sum. reflexivity.
  - apply sum_ext; intros j _. unfold second_jacobian. fold k. cbv [E second_ops fm fx jmdd jmd jm jxd jx local scalev update_delta_velocity
      update_delta_acceleration k dofs]. unfold Rdiv. ring.
Qed.
Lemma first_ops_jacobian e th beta dt h X : exact_elem e th ->
  is_jacobian (first_ops e th) (first_residual beta dt (first_ops e th) h) (first_jacobian beta dt (first_ops e th) h X) X.
Proof.
  intros HE D i Li. change (nd (first_ops e th)) with (se_n e) in *.
  set (E := first_ops e th). set (k := First beta).
  pose proof (creep_rate e th (local E X) (local E (update_velocity k dt (hx h 1%nat) (hv h 1%nat) (ha h 1%nat) X))
    (local E D) (local E (update_delta_velocity k dt D)) i HE Li) as H.
  eapply dlim_ext; [| |exact H].
  - intros s. unfold first_residual. fold k. rewrite vel_along, !local_along. cbv [E first_ops fm fx]. rewrite first_sum. reflexivity.
  - apply sum_ext; intros j _. unfold first_jacobian. fold k. cbv [E first_ops fm fx jmd jm jx local update_delta_velocity k dofs scalev].
    unfold Rdiv. ring.
Qed.
Lemma along0 x t : along x vzero t = x.
Proof. apply functional_extensionality; intros i. unfold along, vzero. ring. Qed.
Lemma second_ops_high e th af h a : exact_elem e th ->
  is_jacobian (second_ops e th) (second_high_residual 0 af (second_ops e th) h) (second_high_jacobian 0 af (second_ops e th) h a) a.
Proof.
  intros HE D i Li. change (nd (second_ops e th)) with (se_n e) in *. set (E := second_ops e th).
  pose proof (motion_rate e th (local E (blend af (hx h 0%nat) (hx h 1%nat))) (local E (blend af (hv h 0%nat) (hv h 1%nat)))
    (local E (blend 0 a (ha h 1%nat))) vzero vzero (local E D) i HE Li) as H.
  eapply dlim_ext; [| |exact H].
  - intros s. unfold second_high_residual. rewrite !along0, blend_along, local_along.
    replace (local E (scalev (1 - 0) D)) with (local E D) by (apply functional_extensionality; intros q; unfold local, scalev; ring).
    cbv [E second_ops fm fx]. rewrite second_sum. reflexivity.
  - apply sum_ext; intros j _. unfold second_high_jacobian. cbv [E second_ops jmdd local vzero dofs]. ring.
Qed.
Lemma first_ops_high e th h v : exact_elem e th ->
  is_jacobian (first_ops e th) (first_high_residual (first_ops e th) h) (first_high_jacobian (first_ops e th) h v) v.
Proof.
  intros HE D i Li. change (nd (first_ops e th)) with (se_n e) in *. set (E := first_ops e th).
  pose proof (creep_rate e th (local E (hx h 0%nat)) (local E v) vzero (local E D) i HE Li) as H.
  eapply dlim_ext; [| |exact H].
  - intros s. unfold first_high_residual. rewrite !along0, local_along. cbv [E first_ops fm fx]. rewrite first_sum. reflexivity.
  - apply sum_ext; intros j _. unfold first_high_jacobian. cbv [E first_ops jmd local vzero dofs]. ring.
Qed.

Lemma product_value e th x v a dx dv da i f : exact_linear e th -> (i < se_n e)%nat ->
  product e th x v (Some a) dx dv (Some da) = Ok f ->
  f i + sum (se_n e) (fun j => rt_jd (se_dam e) th x v i j * dv j + rt_j (se_dam e) th x v i j * dx j) =
  sum (se_n e) (fun j => c2_mxdd (second_calc e th true x v a) i j * da j +
       (c2_mxd (second_calc e th true x v a) i j + c2_xxd (second_calc e th true x v vzero) i j) * dv j +
       (c2_mx (second_calc e th true x v a) i j + c2_xx (second_calc e th true x v vzero) i j) * dx j).
Proof.
  intros (Hi & Hr & Hm) Li. unfold product. intros [= <-]. unfold vadd, vzero.
  rewrite (Hi _ _ _ Li), (Hr (se_side e) (or_introl eq_refl) _ _ _ _ _ Li), (Hr (se_vol e) (or_intror eq_refl) _ _ _ _ _ Li), (Hm _ _ _ _ _ _ _ Li).
  rewrite Rplus_0_l, <- !sum_plus. apply sum_ext; intros j _.
  cbv [second_calc c2_mxdd c2_mxd c2_mx c2_xxd c2_xx madd_if madd mnull]. ring.
Qed.
Lemma sens_value e th g x v a d i : exact_param e th g x v a -> (i < se_n e)%nat -> solver_sens e th g x v (Some a) = Ok d ->
  derivable_pt_lim (fun s => motion e (with_par th g s) x v a i) (th g) (d i).
Proof.
  intros HP Li. unfold solver_sens, sens_calc; cbn. intros [= <-]. destruct (HP i Li) as (Hi & Hr & Hm).
  pose proof (derivable_pt_lim_plus _ _ _ _ _ (derivable_pt_lim_plus _ _ _ _ _ (derivable_pt_lim_plus _ _ _ _ _
    (derivable_pt_lim_plus _ _ _ _ _ Hm (Hr _ (or_introl eq_refl))) Hi) (Hr _ (or_intror (or_introl eq_refl)))) (Hr _ (or_intror (or_intror eq_refl)))) as H.
  eapply dlim_ext; [| |exact H]; [reflexivity|]. unfold vadd, vzero. ring.
Qed.
