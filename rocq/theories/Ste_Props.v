(** C229-C231: dynamics of structures. *)
From Coq Require Import Reals.
From Coq Require Import List Arith Bool Lia Lra FunctionalExtensionality.
From Verif Require Import Base BaseLemmas Trans_Model Trans_Spec Trans_Proofs Ste_Model Ste_Spec Ste_Proofs.
Import ListNotations.
Open Scope R_scope.

(** one degree of freedom: mass th 0, stiffness th 1, damping c, a load that follows the velocity, a constant load *)
Definition drag (c : R) : rterm := mkRt (fun _ _ v i => c * v i) (fun _ _ _ _ _ => c) (fun _ _ _ _ _ => 0) (fun _ _ _ _ _ => 0)
  (fun _ _ _ _ dv i => c * dv i).
Definition dead (p : R) : rterm := mkRt (fun _ _ _ _ => p) (fun _ _ _ _ _ => 0) (fun _ _ _ _ _ => 0) (fun _ _ _ _ _ => 0) (fun _ _ _ _ _ _ => 0).
Definition cart (c q p pre : R) : selem := mkSe 1 (fun i => i)
  (fun th x i => th 1%nat * x i) (fun th _ _ _ => th 1%nat) (fun _ g x i => if (g =? 1)%nat then x i else 0) (fun th _ dx i => th 1%nat * dx i)
  (fun _ x i => pre * x i) (drag c) (drag q) (dead p)
  (fun th _ _ a i => th O * a i) (fun th _ _ _ _ _ => th O) (fun _ _ _ _ _ _ => 0) (fun _ _ _ _ _ _ => 0)
  (fun _ g _ _ a i => if (g =? 0)%nat then a i else 0) (fun th _ _ _ _ _ da i => th O * da i).
Lemma lin_lim (a b c x : R) : derivable_pt_lim (fun s => a * (b + s * c)) x (a * c).
Proof.
  pose proof (derivable_pt_lim_scal _ a x _ (derivable_pt_lim_plus _ _ x _ _ (derivable_pt_lim_const b x)
    (derivable_pt_lim_mult _ _ x _ _ (derivable_pt_lim_id x) (derivable_pt_lim_const c x)))) as H.
  eapply dlim_ext; [| |exact H]; [reflexivity|unfold fct_cte; ring].
Qed.
Lemma cart_exact c q p pre th : exact_elem (cart c q p pre) th.
Proof.
  assert (Z : forall (d : R) t x v dx dv i, (i < 1)%nat -> rt_f t = (fun _ _ v i => d * v i) -> rt_jd t = (fun _ _ _ _ _ => d) ->
    rt_j t = (fun _ _ _ _ _ => 0) -> derivable_pt_lim (fun s => rt_f t th (along x dx s) (along v dv s) i) 0
    (sum 1 (fun j => rt_jd t th x v i j * dv j + rt_j t th x v i j * dx j))).
  { intros d t x v dx dv i Li -> -> ->. assert (i = 0)%nat as -> by lia. unfold along. eapply dlim_ext; [| |apply (lin_lim d (v O) (dv O))];
      [reflexivity|cbn; ring]. }
  split; [|split; [|split; [|split]]].
  - intros x dx i Li. cbn [se_n cart] in *. assert (i = 0)%nat as -> by lia. cbn [se_int se_int_j cart]. unfold along.
    eapply dlim_ext; [| |apply (lin_lim (th 1%nat) (x O) (dx O))]; [reflexivity|cbn; ring].
  - intros x v dx dv i Li. apply (Z c); auto.
  - intros x v dx dv i Li. apply (Z q); auto.
  - intros x v dx dv i Li. cbn. eapply dlim_ext; [| |apply (derivable_pt_lim_const p 0)]; [reflexivity|ring].
  - intros x v a dx dv da i Li. cbn [se_n cart] in *. assert (i = 0)%nat as -> by lia. cbn [se_in se_in_jdd se_in_jd se_in_j cart]. unfold along.
    eapply dlim_ext; [| |apply (lin_lim (th O) (a O) (da O))]; [reflexivity|cbn; ring].
Qed.
Lemma cart_linear c q p pre th : exact_linear (cart c q p pre) th.
Proof.
  split; [|split].
  - intros x dx i Li. cbn in *. assert (i = 0)%nat as -> by lia. ring.
  - intros t Ht x v dx dv i Li. cbn in Li. assert (i = 0)%nat as -> by lia. destruct Ht as [-> | ->]; cbn; ring.
  - intros x v a dx dv da i Li. cbn in *. assert (i = 0)%nat as -> by lia. ring.
Qed.

(** ** C229 *)
(** Newmark and generalised alpha: the matrix of a structural element is the derivative of its residual, whatever loads follow the rate *)
Theorem C229_second : forall e th beta gamma am af dt h X, exact_elem e th ->
  is_jacobian (second_ops e th) (second_residual beta gamma am af dt (second_ops e th) h)
    (second_jacobian beta gamma am af dt (second_ops e th) h X) X.
Proof. intros; now apply second_ops_jacobian. Qed.
Theorem C229_first : forall e th beta dt h X, exact_elem e th ->
  is_jacobian (first_ops e th) (first_residual beta dt (first_ops e th) h) (first_jacobian beta dt (first_ops e th) h X) X.
Proof. intros; now apply first_ops_jacobian. Qed.
(** the solves for the initial acceleration and for the initial rate *)
Theorem C229_highest : forall e th h, exact_elem e th ->
  (forall af a, is_jacobian (second_ops e th) (second_high_residual 0 af (second_ops e th) h) (second_high_jacobian 0 af (second_ops e th) h a) a) /\
  (forall v, is_jacobian (first_ops e th) (first_high_residual (first_ops e th) h) (first_high_jacobian (first_ops e th) h v) v).
Proof. intros e th h H; split; intros; [now apply second_ops_high|now apply first_ops_high]. Qed.
(** ... although the parts are not: the matrix called the rate Jacobian of the inertial vector has the loads in it *)
Theorem C229_parts_refuted : exists e th, exact_elem e th /\ ~ exact2 (second_ops e th) /\
  ~ (forall x v a dv i, (i < se_n e)%nat -> derivable_pt_lim (fun s => c2_fm (second_calc e th true x (along v dv s) a) i) 0
       (sum (se_n e) (fun j => c2_mxd (second_calc e th true x v a) i j * dv j))).
Proof.
  exists (cart 3 2 7 0), (fun _ => 5). split; [apply cart_exact|].
  assert (Q : forall l, derivable_pt_lim (fun s => 0 + 5 * 0) 0 l -> l = 0).
  { intros l H. apply (uniqueness_limite _ _ _ _ H). apply derivable_pt_lim_const. }
  split.
  - intros [H _]. specialize (H vzero vzero vzero vzero (fun _ => 1) vzero O ltac:(cbn; lia)).
    enough (2 = 0) by lra. apply Q. eapply dlim_ext; [| |exact H].
    + intros s. cbn. unfold vadd, vzero, along. ring.
    + cbv -[Rplus Rmult IZR Ropp Rinv Rdiv Rminus]; ring.
  - intros H. specialize (H vzero vzero vzero (fun _ => 1) O ltac:(cbn; lia)).
    enough (2 = 0) by lra. apply Q. eapply dlim_ext; [| |exact H].
    + intros s. cbn. unfold vadd, vzero, along. ring.
    + cbv -[Rplus Rmult IZR Ropp Rinv Rdiv Rminus]; ring.
Qed.
Example C229_nonvacuous :
  exact_elem (cart 3 2 7 0) (fun _ => 5) /\
  second_jacobian (1/4) (1/2) 0 0 2 (second_ops (cart 3 2 7 0) (fun _ => 5)) (mkHist (fun _ => vzero) (fun _ => vzero) (fun _ => vzero)) vzero O O = 15.
Proof.
  split; [apply cart_exact|]. cbv -[Rplus Rmult IZR Ropp Rinv Rdiv Rminus]. field.
Qed.

(** ** C230 *)
(** the residual is the balance of all forces, and asking for the matrices does not change it *)
Theorem C230_balance : forall e th b x v a i,
  c2_fm (second_calc e th b x v a) i + c2_fx (second_calc e th b x v a) i = motion e th x v a i /\
  c1_fm (first_calc e th b x v) i + c1_fx (first_calc e th b x v) i = creep e th x v i /\
  c2_fm (second_calc e th b x v a) i = se_in e th x v a i /\
  c1_fm (first_calc e th b x v) i = rt_f (se_dam e) th x v i /\
  fst (static_calc e th b x vzero) i = equilibrium e th x i.
Proof.
  intros. cbv [second_calc first_calc static_calc c2_fm c2_fx c1_fm c1_fx vadd motion creep equilibrium fst]. unfold vzero at 1 2 3 4 5 6 7.
  repeat split; ring.
Qed.
Theorem C230_unasked : forall e th x v a i j,
  let c := second_calc e th false x v a in let d := first_calc e th false x v in
  c2_mxdd c i j = 0 /\ c2_mxd c i j = 0 /\ c2_mx c i j = 0 /\ c2_xxd c i j = 0 /\ c2_xx c i j = 0 /\
  c1_mxd d i j = 0 /\ c1_mx d i j = 0 /\ c1_xx d i j = 0 /\ snd (static_calc e th false x v) i j = 0.
Proof. intros; cbv [second_calc first_calc static_calc madd_if mnull c2_mxdd c2_mxd c2_mx c2_xxd c2_xx c1_mxd c1_mx c1_xx snd c d]; repeat split. Qed.
(** a state at rest is a solution of the equations of motion just when it is one of statics *)
Theorem C230_rest : forall e th x, passive_at_rest e th ->
  (forall i, (i < se_n e)%nat -> c2_fm (second_calc e th true x vzero vzero) i + c2_fx (second_calc e th true x vzero vzero) i = fst (static_calc e th true x vzero) i) /\
  (forall i, (i < se_n e)%nat -> c1_fm (first_calc e th true x vzero) i + c1_fx (first_calc e th true x vzero) i = fst (static_calc e th true x vzero) i).
Proof.
  intros e th x H; split; intros i Li; destruct (H x i Li) as [Ha Hd]; destruct (C230_balance e th true x vzero vzero i) as (E2 & E1 & _ & _ & E0);
    rewrite E0; [rewrite E2; unfold motion|rewrite E1; unfold creep]; rewrite ?Ha, Hd; unfold equilibrium; ring.
Qed.
(** ... and the matrices of statics and of dynamics differ by what inertia and damping add *)
Theorem C230_stiffness : forall e th x v a i j,
  let c := second_calc e th true x v a in
  c2_mx c i j + c2_xx c i j = snd (static_calc e th true x v) i j + se_in_j e th x v a i j + rt_j (se_dam e) th x v i j /\
  c2_mxdd c i j = se_in_jdd e th x v a i j /\
  c2_mxd c i j + c2_xxd c i j = se_in_jd e th x v a i j + rt_jd (se_dam e) th x v i j + rt_jd (se_side e) th x v i j + rt_jd (se_vol e) th x v i j.
Proof. intros; cbv [second_calc static_calc madd_if madd mnull c2_mxdd c2_mxd c2_mx c2_xxd c2_xx snd c]; repeat split; ring. Qed.
(** the prestress of the section, which the buckling analysis counts, has no part in statics or dynamics *)
Theorem C230_prestress_refuted : exists e e' th x, (exists i, (i < se_n e)%nat /\ se_pre e th x i <> se_pre e' th x i) /\
  (forall b v a, second_calc e th b x v a = second_calc e' th b x v a /\ first_calc e th b x v = first_calc e' th b x v /\
     static_calc e th b x v = static_calc e' th b x v).
Proof.
  exists (cart 3 2 7 0), (cart 3 2 7 4), (fun _ => 5), (fun _ => 1). split.
  - exists O; split; [cbn; lia|cbn; lra].
  - intros; repeat split.
Qed.
Example C230_nonvacuous : passive_at_rest (cart 3 2 7 0) (fun _ => 5) /\ equilibrium (cart 3 2 7 0) (fun _ => 5) (fun _ => 2) O = 17 /\
  motion (cart 3 2 7 0) (fun _ => 5) (fun _ => 2) (fun _ => 1) (fun _ => 1) O = 27.
Proof.
  split; [|split].
  - intros x i _. cbn. unfold vzero. split; ring.
  - cbv -[Rplus Rmult IZR Ropp Rinv Rdiv Rminus]; ring.
  - cbv -[Rplus Rmult IZR Ropp Rinv Rdiv Rminus]; ring.
Qed.

(** ** C231 *)
(** second order: the sensitivity of the residual is its derivative with respect to the parameter *)
Theorem C231_sensitivity_partial : forall e th g x v a, exact_param e th g x v a ->
  exists d, solver_sens e th g x v (Some a) = Ok d /\
    forall i, (i < se_n e)%nat -> derivable_pt_lim (fun s => motion e (with_par th g s) x v a i) (th g) (d i).
Proof. intros e th g x v a H. eexists. split; [reflexivity|]. intros i Li. eapply sens_value; eauto. Qed.
(** first order: the acceleration is read, and the solver does not set it *)
Theorem C231_first_refuted : forall e th g x v dx dv,
  solver_sens e th g x v None = Fault OutOfBounds /\ product e th x v None dx dv None = Fault OutOfBounds.
Proof. intros; split; reflexivity. Qed.
(** ... and were it set, the derivative of the inertial force would be in the result though the force is not in the residual *)
Theorem C231_inertia_refuted : exists e th g x v a d, exact_param e th g x v a /\ solver_sens e th g x v (Some a) = Ok d /\
  ~ derivable_pt_lim (fun s => creep e (with_par th g s) x v O) (th g) (d O).
Proof.
  exists (cart 3 2 7 0), (fun _ => 5), O, (fun _ => 1), (fun _ => 1), (fun _ => 1). eexists. split; [|split; [reflexivity|]].
  - intros i Li. cbn in Li. assert (i = 0)%nat as -> by lia. split; [|split].
    + cbn. eapply dlim_ext; [| |apply (derivable_pt_lim_const (5 * 1) 5)]; [reflexivity|reflexivity].
    + intros t [-> | [-> | ->]]; cbn; apply derivable_pt_lim_const.
    + cbn. eapply dlim_ext; [| |apply (lin_lim 1 0 1)]; [intros s; unfold with_par; cbn; ring|ring].
  - intros H. enough (1 = 0) by lra.
    refine (uniqueness_limite (fun _ => 17) 5 _ _ _ (derivable_pt_lim_const 17 5)).
    eapply dlim_ext; [| |exact H].
    + intros s. cbv -[Rplus Rmult IZR Ropp Rinv Rdiv Rminus]; ring.
    + cbv -[Rplus Rmult IZR Ropp Rinv Rdiv Rminus]; ring.
Qed.
(** the product of the matrix with a perturbation, without the matrix: short of the damping, and exact when there is none *)
Theorem C231_product_partial : forall e th x v a dx dv da, exact_linear e th ->
  exists f, product e th x v (Some a) dx dv (Some da) = Ok f /\
    forall i, (i < se_n e)%nat ->
      f i + sum (se_n e) (fun j => rt_jd (se_dam e) th x v i j * dv j + rt_j (se_dam e) th x v i j * dx j) =
      sum (se_n e) (fun j => jmdd (second_ops e th) x v a i j * da j + (jmd (second_ops e th) x v a i j + jxd (second_ops e th) x v i j) * dv j +
                             (jm (second_ops e th) x v a i j + jx (second_ops e th) x v i j) * dx j).
Proof. intros e th x v a dx dv da H. eexists; split; [reflexivity|]. intros i Li. eapply product_value; eauto. Qed.
Theorem C231_undamped_partial : forall e th beta gamma dt h x dx i, exact_linear e th -> (i < se_n e)%nat ->
  (forall x v i j, rt_jd (se_dam e) th x v i j = 0 /\ rt_j (se_dam e) th x v i j = 0) ->
  second_product beta gamma 0 0 dt (second_ops e th) h x dx i =
  sum (se_n e) (fun j => second_jacobian beta gamma 0 0 dt (second_ops e th) h x i j * dx (se_dofs e j)).
Proof.
  intros e th beta gamma dt h x dx i H Li Z.
  apply (product_exact beta gamma dt (second_ops e th) h x dx i); [|exact Li].
  intros x' v' a' dx' dv' da' i' Li'. destruct (C231_product_partial e th x' v' a' dx' dv' da' H) as (f & Ef & Hf).
  cbn [nd second_ops] in *. rewrite <- (Hf i' Li').
  replace (jprod (second_ops e th) x' v' a' dx' dv' da') with f by (cbv [second_ops jprod]; rewrite Ef; reflexivity).
  rewrite (sum_0 (se_n e)); [ring|]. intros j _. destruct (Z x' v' i' j) as [-> ->]. ring.
Qed.
Theorem C231_damping_refuted : exists e th, exact_linear e th /\ exact_elem e th /\ ~ exact_product (second_ops e th).
Proof.
  exists (cart 3 2 7 0), (fun _ => 5). split; [apply cart_linear|split; [apply cart_exact|]].
  intros H. specialize (H vzero vzero vzero vzero (fun _ => 1) vzero O ltac:(cbn; lia)).
  cbv -[Rplus Rmult IZR Ropp Rinv Rdiv Rminus] in H. lra.
Qed.
Example C231_nonvacuous : exact_linear (cart 0 2 7 0) (fun _ => 5) /\
  (forall x v i j, rt_jd (se_dam (cart 0 2 7 0)) (fun _ => 5) x v i j = 0 /\ rt_j (se_dam (cart 0 2 7 0)) (fun _ => 5) x v i j = 0) /\
  exact_param (cart 3 2 7 0) (fun _ => 5) 1 (fun _ => 2) (fun _ => 1) (fun _ => 1) /\
  exists d, solver_sens (cart 3 2 7 0) (fun _ => 5) 1 (fun _ => 2) (fun _ => 1) (Some (fun _ => 1)) = Ok d /\ d O = 2.
Proof.
  split; [apply cart_linear|split; [intros; split; reflexivity|split]].
  - intros i Li. cbn in Li. assert (i = 0)%nat as -> by lia. split; [|split].
    + cbn. eapply dlim_ext; [| |apply (lin_lim 2 0 1)]; [intros s; unfold with_par; cbn; ring|ring].
    + intros t [-> | [-> | ->]]; cbn; apply derivable_pt_lim_const.
    + cbn. eapply dlim_ext; [| |apply (derivable_pt_lim_const (5 * 1) 5)]; [reflexivity|reflexivity].
  - eexists; split; [reflexivity|]. cbv -[Rplus Rmult IZR Ropp Rinv Rdiv Rminus]; ring.
Qed.

Print Assumptions C229_second. Print Assumptions C229_first. Print Assumptions C229_highest. Print Assumptions C229_parts_refuted.
Print Assumptions C230_balance. Print Assumptions C230_unasked. Print Assumptions C230_rest. Print Assumptions C230_stiffness.
Print Assumptions C230_prestress_refuted.
Print Assumptions C231_sensitivity_partial. Print Assumptions C231_first_refuted. Print Assumptions C231_inertia_refuted.
Print Assumptions C231_product_partial. Print Assumptions C231_undamped_partial. Print Assumptions C231_damping_refuted.
