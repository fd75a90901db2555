(** Eigenvalue analysis and its sensitivities: C115 - C120. *)
From Coq Require Import Reals Lra.
From Coquelicot Require Import Coquelicot.
From Coq Require Import List Arith Bool Lia FunctionalExtensionality.
From Verif Require Import Base BaseLemmas RBool Sens_Model Sens_Spec Sens_Proofs Sens_Proofs2
  Eig_Model Eig_Spec Eig_Proofs.
Import ListNotations.
Open Scope R_scope.

(** ** C115 eigenpairs *)
(** After eigenproblem_solve every pair that get_eigenpair delivers is an eigenpair of the assembled
    problem on the free dofs, real, and scaled to unit B-norm, also when A and B are exchanged. *)
Theorem C115_eigenpairs : forall slepc p s s' i v x, kind s = GHEP -> exact_solver slepc -> condensed_ok p s ->
  eigenproblem_solve slepc p s = Ok s' -> get_eigenpair p s' i = Ok (v, x) ->
  snd v = 0 /\
  eigenpair (n (dofs p)) (assembleA p) (assembleB p) (free_dofs s) (fst v) x /\
  quad_form (n (dofs p)) (assembleB p) x = 1.
Proof.
  intros slepc p s s' i v x K EX CO H G.
  destruct (solve_state slepc p s s' K H) as (K' & X' & C' & N' & A' & B' & L' & NE & PP).
  unfold get_eigenpair in G. destruct (nth_error (pairs s') i) as [[mu y]|] eqn:E; [|discriminate].
  apply nth_error_In in E. destruct (pair_raw slepc p s s' mu y K EX CO H E) as [Z P].
  rewrite C', X', K', B' in G.
  assert (Q : exists x0, (match condensed s with
           | None => Ok y
           | Some free => assert_ (negb (length free =? 0)%nat) (Ok (scatter free y))
           end) = Ok x0 /\ x0 = match condensed s with None => y | Some l => scatter l y end).
  { destruct (condensed s) as [l|] eqn:C; [|eexists; split; reflexivity].
    specialize (NE l eq_refl). apply Nat.eqb_neq in NE. rewrite NE. eexists; split; reflexivity. }
  destruct Q as (x0 & Q1 & Q2). rewrite Q1 in G. cbn [bind] in G.
  destruct (if exchange s then cinv mu else Ok mu) as [w|] eqn:W; [|discriminate]. cbn [bind] in G.
  destruct (P w eq_refl) as [W0 EP]. rewrite <- Q2 in EP.
  unfold rgt in G. destruct (rltb 0 (dot (n (dofs p)) (mat_vec (n (dofs p)) (assembleB p) x0) x0)) eqn:RL; [|discriminate].
  cbn [assert_] in G. injection G as <- <-. apply rltb_true in RL. rewrite dot_quad in *.
  split; [exact W0|]. split; [now apply eigenpair_scale|].
  rewrite quad_scale. now apply inv_sqrt.
Qed.
(** get_eigenpair succeeds for every converged pair whose vector has positive B-norm, unless the problem
    is exchanged and the solver's eigenvalue is zero. *)
Theorem C115_available : forall slepc p s s' i mu y x0, kind s = GHEP -> exact_solver slepc -> condensed_ok p s ->
  eigenproblem_solve slepc p s = Ok s' -> nth_error (pairs s') i = Some (mu, y) ->
  x0 = match condensed s with None => y | Some l => scatter l y end ->
  0 < quad_form (n (dofs p)) (assembleB p) x0 -> (exchange s = true -> fst mu <> 0) ->
  exists v x, get_eigenpair p s' i = Ok (v, x) /\
    fst v = (if exchange s then / fst mu else fst mu) /\
    forall k, x k = x0 k / sqrt (quad_form (n (dofs p)) (assembleB p) x0).
Proof.
  intros slepc p s s' i mu y x0 K EX CO H E X0 Q M.
  destruct (solve_state slepc p s s' K H) as (K' & X' & C' & N' & A' & B' & L' & NE & PP).
  destruct (pair_raw slepc p s s' mu y K EX CO H (nth_error_In _ _ E)) as [Z P].
  unfold get_eigenpair. rewrite E, C', X', K', B'.
  assert (Q1 : (match condensed s with
           | None => Ok y
           | Some free => assert_ (negb (length free =? 0)%nat) (Ok (scatter free y))
           end) = Ok x0).
  { subst x0. destruct (condensed s) as [l|] eqn:C; auto.
    specialize (NE l eq_refl). apply Nat.eqb_neq in NE. now rewrite NE. }
  rewrite Q1. cbn [bind].
  assert (W : exists w, (if exchange s then cinv mu else Ok mu) = Ok w /\ fst w = (if exchange s then / fst mu else fst mu)).
  { destruct (exchange s); [|eexists; split; reflexivity].
    specialize (M eq_refl). unfold cinv. rewrite Z.
    destruct (reqb (fst mu * fst mu + 0 * 0) 0) eqn:R0.
    - apply reqb_true in R0. exfalso. assert (0 < fst mu * fst mu) by (destruct (Rdichotomy _ _ M); nra). lra.
    - eexists; split; [reflexivity|]. cbn. field. auto. }
  destruct W as (w & -> & Ww). cbn [bind]. rewrite dot_quad. unfold rgt.
  rewrite (proj2 (rltb_true _ _) Q). cbn [assert_]. eexists _, _; split; [reflexivity|]. split; [exact Ww|].
  intros k. cbn. field. apply Rgt_not_eq, sqrt_lt_R0, Q.
Qed.

(** one dof, no constraints: A and B are the given numbers, as functions of the parameter 0 *)
Definition one_elem (a b da db : params -> R) : eelem := mkEE [0%nat]
  (fun t _ _ _ => a t) (fun t _ _ _ => b t) (fun t _ _ _ _ _ _ => da t) (fun t _ _ _ _ _ _ => db t).
Definition one_sys : sys := mkSys 1 1 [] [] (fun _ => false) (fun _ => None) (fun _ => false) None.
Definition one_prob (a b da db : params -> R) (t : params) : prob := mkProb one_sys [one_elem a b da db] t None None.
(** an exact solver for 1 x 1 pencils *)
Definition slepc1 (A : matrix) (B : option matrix) (m nev : nat) : list ((R * R) * vec) :=
  match B with
  | Some B => if (m =? 1)%nat then if reqb (B O O) 0 then [] else [((A O O / B O O, 0), fun _ => 1)] else []
  | None => []
  end.
Lemma slepc1_exact : exact_solver slepc1.
Proof.
  intros A B m nev mu y H. unfold slepc1 in H. destruct (Nat.eqb_spec m 1); [|destruct H].
  destruct (reqb (B O O) 0) eqn:E; [destruct H|]. apply reqb_false in E. destruct H as [H|[]]. injection H as <- <-.
  split; [reflexivity|]. intros i Hi. subst. assert (i = O) by lia. subst. cbn. field. exact E.
Qed.
Lemma one_A a b da db t i j : assembleA (one_prob a b da db t) i j = if (i =? 0)%nat && (j =? 0)%nat then a t else 0.
Proof.
  rewrite asmA_eq. destruct i; destruct j; cbn; unfold mctr, coef; cbn; unfold total; cbn; ring.
Qed.
Lemma one_B a b da db t i j : assembleB (one_prob a b da db t) i j = if (i =? 0)%nat && (j =? 0)%nat then b t else 0.
Proof.
  rewrite asmB_eq. destruct i; destruct j; cbn; unfold mctr, coef; cbn; unfold total; cbn; ring.
Qed.
Definition one_state (ex : bool) : esys := mkES GHEP ex None 1 0 mzero (Some mzero) [].
(** An exchanged problem (A positive definite, B indefinite, as in buckling) with a negative eigenvalue:
    the solver converges, but the pair cannot be retrieved. *)
Theorem C115_negative_exchange_refuted : exists slepc p s s', kind s = GHEP /\ exact_solver slepc /\
  condensed_ok p s /\ exchange s = true /\ eigenproblem_solve slepc p s = Ok s' /\ n_conv s' = 1%nat /\
  0 < assembleA p O O /\ fst (fst (nth O (pairs s') (0, 0, zero))) <> 0 /\
  get_eigenpair p s' O = Fault AssertFailed.
Proof.
  set (p := one_prob (fun _ => 1) (fun _ => -1) (fun _ => 0) (fun _ => 0) (fun _ => 0)).
  exists slepc1, p, (one_state true).
  assert (E : reqb (assembleA p O O) 0 = false) by (apply reqb_false; unfold p; rewrite one_A; cbn; lra).
  assert (S : eigenproblem_solve slepc1 p (one_state true) =
    Ok (mkES GHEP true None 1 1 (assembleA p) (Some (assembleB p)) [((assembleB p O O / assembleA p O O, 0), fun _ => 1)])).
  { unfold eigenproblem_solve. cbn -[assembleA assembleB slepc1 p]. unfold slepc1.
    change (n (dofs p) =? 1)%nat with true. rewrite E. reflexivity. }
  eexists. split; [reflexivity|]. split; [exact slepc1_exact|]. split; [intros l Hl; discriminate|].
  split; [reflexivity|]. split; [exact S|]. split; [reflexivity|].
  split; [unfold p; rewrite one_A; cbn; lra|].
  split; [cbn [pairs nth fst]; unfold p; rewrite one_A, one_B; cbn; lra|].
  unfold get_eigenpair. cbn [pairs nth_error condensed exchange kind matB bind].
  assert (C : exists w, cinv (assembleB p O O / assembleA p O O, 0) = Ok w).
  { clear E S. unfold cinv. destruct (reqb _ _) eqn:R; [|eexists; reflexivity]. apply reqb_true in R. exfalso.
    cbn [fst snd] in R. unfold p in R. rewrite one_A, one_B in R. cbn in R. lra. }
  destruct C as (w & ->). cbn [bind]. rewrite dot_quad. unfold rgt.
  rewrite (proj2 (rltb_false _ _)); [reflexivity|].
  unfold quad_form. change (n (dofs p)) with 1%nat. cbn [sum]. unfold p; rewrite one_B; cbn. lra.
Qed.

(** ** C116 sensitivity of eigenvalues, first call after the analysis *)
Theorem C116_eigenvalue_sensitivity : forall slepc p s s' f ind q s'' b idx k i v x lam X dlam dX,
  kind s = GHEP -> exact_solver slepc -> condensed_ok p s ->
  (forall i, (i < n (dofs p))%nat -> free_dofs s i -> constrained (dofs p) i = false) ->
  eigenproblem_solve slepc p s = Ok s' ->
  eigenproblem_sensitivity_solve p s' f ind = Ok (q, s'') ->
  matrices_differentiable p f b -> path_through p f b -> symmetric_elements p ->
  (* the k-th requested pair *)
  indices_for s' ind = Ok idx -> nth_error idx k = Some i -> get_eigenpair p s' i = Ok (v, x) ->
  (* continues to a differentiable branch of eigenpairs *)
  lam (th p f) = fst v -> (forall d, (d < n (dofs p))%nat -> X (th p f) d = x d) ->
  locally (th p f) (fun t => eigenpair (n (dofs p)) (assembleA (along p f b t)) (assembleB (along p f b t))
                               (free_dofs s) (lam t) (X t)) ->
  is_derive lam (th p f) dlam -> (forall d, (d < n (dofs p))%nat -> is_derive (fun t => X t d) (th p f) (dX d)) ->
  nth_error q k = Some dlam.
Proof.
  intros slepc p s s' f ind q s'' b idx k i v x lam X dlam dX K EX CO FC H HS MD PT SY HI HK HG L0 X0 EP DL DX.
  destruct (solve_state slepc p s s' K H) as (K' & X' & C' & N' & A' & B' & L' & NE & PP).
  destruct (sens_solve_nth p s' f ind q s'' (assembleB p) K' B' HS) as (l & I2 & LQ & _ & _ & _ & Q).
  rewrite HI in I2. injection I2 as <-. destruct (Q k i HK) as (v2 & x2 & G2 & N2). rewrite HG in G2.
  injection G2 as <- <-. rewrite N2.
  destruct (C115_eigenpairs slepc p s s' i v x K EX CO H HG) as (_ & _ & U). rewrite U.
  set (m := n (dofs p)) in *.
  assert (QX : forall M, quad_form m M (X (th p f)) = quad_form m M x)
    by (intros M; unfold quad_form; apply sum_ext; intros a Ha; apply sum_ext; intros c Hc; now rewrite !X0).
  assert (QB : quad_form m (assembleB (along p f b (th p f))) x = quad_form m (assembleB p) x).
  { unfold quad_form. apply sum_ext; intros a Ha; apply sum_ext; intros c Hc. f_equal. f_equal.
    apply (asm_at p f b a c PT). }
  pose proof (perturb m (fun t => assembleA (along p f b t)) (fun t => assembleB (along p f b t))
    (sens_matrix p ee_dA f) (sens_matrix p ee_dB f) (free_dofs s)
    (fun a => match condensed s with None => true | Some l => existsb (Nat.eqb a) l end)
    lam X dlam dX (th p f)) as PB.
  assert (R : dlam * quad_form m (assembleB (along p f b (th p f))) (X (th p f)) =
    quad_form m (sens_matrix p ee_dA f) (X (th p f)) - lam (th p f) * quad_form m (sens_matrix p ee_dB f) (X (th p f))).
  { apply PB; auto.
    - intros a. unfold free_dofs. destruct (condensed s) as [l|]; [|tauto]. rewrite existsb_exists. split.
      + intros (z & Hz & E). apply Nat.eqb_eq in E. now subst.
      + intros Ha. exists a. split; auto. apply Nat.eqb_refl.
    - intros a c Ha Hc Fa. apply asmA_der; auto.
    - intros a c Ha Hc Fa. apply asmB_der; auto.
    - intros a c Ha Hc Fa Fc. destruct (asm_at p f b a c PT) as [-> _]. destruct (asm_at p f b c a PT) as [-> _].
      apply (asm_sym p a c SY); auto.
    - intros a c Ha Hc Fa Fc. destruct (asm_at p f b a c PT) as [_ ->]. destruct (asm_at p f b c a PT) as [_ ->].
      apply (asm_sym p a c SY); auto. }
  rewrite !QX, QB, U, L0 in R. rewrite Rmult_1_r in R. rewrite R. apply f_equal. unfold m. field.
Qed.
(** elements see the base solution, and its sensitivity, at their own dofs *)
Theorem C116_base_solution : forall p v dv ds k, base p = Some v -> base_sens p = Some dv ->
  local_base (base p) ds k = v (nth k ds O) /\ sens_local p ds k = dv (nth k ds O).
Proof. intros p v dv ds k E1 E2. unfold local_base, sens_local. rewrite E1, E2. split; reflexivity. Qed.
(** a base solution without its sensitivity is refused *)
Theorem C116_base_sensitivity_needed : forall p s f ind b, base p = Some b -> base_sens p = None ->
  forall q s', eigenproblem_sensitivity_solve p s f ind <> Ok (q, s').
Proof.
  intros p s f ind b E1 E2 q s' H. unfold eigenproblem_sensitivity_solve in H.
  destruct (n_conv s =? 0)%nat; [discriminate|]. cbn [negb assert_] in H.
  destruct (indices_for s ind) as [l|]; [|discriminate]. cbn [bind] in H.
  destruct (right_vectors p s l) as [r|]; [|discriminate]. cbn [bind] in H.
  unfold eigenproblem_sensitivity_assemble in H. destruct (matB s); [|discriminate].
  unfold has_base in H. rewrite E1, E2 in H. discriminate.
Qed.

(** ** C117 several sensitivity analyses after one eigenvalue analysis *)
(** lambda = 1/p: A = p, B = p^2, at p = 1 *)
Definition inv_prob : prob := one_prob (fun t => t O) (fun t => t O * t O) (fun _ => 1) (fun t => 2 * t O) (fun _ => 1).
Lemma inv_diff : matrices_differentiable inv_prob O (fun _ => zero).
Proof.
  intros e k l [<-|[]] Hk Hl. cbn. unfold at_. cbn. split.
  - apply @is_derive_id.
  - auto_derive; auto. ring.
Qed.
Lemma sens_one a b da db t d f (D : params -> R) :
  (forall k l, d (one_elem a b da db) t f false zero zero k l = D t) ->
  sens_matrix (one_prob a b da db t) d f O O = D t.
Proof.
  intros H. rewrite sens_eq. cbn [els one_prob map total lsum fold_right]. unfold total; cbn [map lsum fold_right].
  unfold mctr, coef. cbn -[Rplus Rmult]. unfold dof; cbn -[Rplus Rmult]. rewrite H. ring.
Qed.
Definition solved1 (p : prob) : esys :=
  mkES GHEP false None 1 1 (assembleA p) (Some (assembleB p)) [((assembleA p O O / assembleB p O O, 0), fun _ => 1)].
Lemma solve1 p : n (dofs p) = 1%nat -> assembleB p O O <> 0 ->
  eigenproblem_solve slepc1 p (one_state false) = Ok (solved1 p).
Proof.
  intros N1 B0. unfold eigenproblem_solve. cbn -[assembleA assembleB slepc1]. unfold slepc1. rewrite N1.
  change (1 =? 1)%nat with true. cbv iota. rewrite (proj2 (reqb_false _ _) B0). reflexivity.
Qed.
(** the computed sensitivity for one dof, from any state holding matrices A0, B0 *)
Lemma sens1 p A0 B0 f lam : n (dofs p) = 1%nat -> base p = None -> 0 < B0 O O ->
  eigenproblem_sensitivity_solve p (mkES GHEP false None 1 1 A0 (Some B0) [((lam, 0), fun _ => 1)]) f None =
  Ok ([(sens_matrix p ee_dA f O O - lam * sens_matrix p ee_dB f O O) / B0 O O],
      mkES GHEP false None 1 1 (sens_matrix p ee_dA f) (Some (sens_matrix p ee_dB f)) [((lam, 0), fun _ => 1)]).
Proof.
  intros N1 NB P. unfold eigenproblem_sensitivity_solve.
  cbn [n_conv Nat.eqb negb assert_ indices_for n_req Nat.min seq bind right_vectors].
  unfold get_eigenpair. cbn [pairs nth_error condensed exchange kind matB bind snd fst]. rewrite N1.
  assert (Q : dot 1 (mat_vec 1 B0 (fun _ => 1)) (fun _ => 1) = B0 O O) by (cbn; unfold mat_vec; cbn; ring).
  rewrite Q. unfold rgt. rewrite (proj2 (rltb_true _ _) P). cbn [assert_ bind snd fst right_vectors].
  unfold eigenproblem_sensitivity_assemble, has_base. cbn [matB]. rewrite NB. cbn [andb bind with_mats].
  cbn [all_sens eig_sens kind with_mats matA matB bind]. rewrite N1.
  assert (SQ : forall M : matrix, dot 1 (fun _ => 1 * (1 / sqrt (B0 O O))) (mat_vec 1 M (fun _ => 1 * (1 / sqrt (B0 O O)))) = M O O / B0 O O).
  { intros M. cbn [dot sum]. unfold dot, mat_vec; cbn [sum].
    assert (S0 : sqrt (B0 O O) <> 0) by (apply Rgt_not_eq, sqrt_lt_R0, P).
    rewrite <- (sqrt_sqrt (B0 O O)) at 3 by lra. field. exact S0. }
  rewrite !SQ. unfold with_mats. cbn [kind exchange condensed n_req n_conv pairs]. do 3 f_equal.
  field. lra.
Qed.
(** The first call gives d(1/p)/dp = -1; the same call again, with nothing else in between, gives -1/2:
    matrix_B holds the sensitivity of B by then, and the eigenvectors are rescaled with it. *)
Theorem C117_second_call_refuted : exists slepc p s s1 s2 s3, kind s = GHEP /\ exact_solver slepc /\
  condensed_ok p s /\ matrices_differentiable p O (fun _ => zero) /\ symmetric_elements p /\
  eigenproblem_solve slepc p s = Ok s1 /\
  eigenproblem_sensitivity_solve p s1 O None = Ok ([-1], s2) /\
  eigenproblem_sensitivity_solve p s2 O None = Ok ([- (1 / 2)], s3) /\
  is_derive (fun t => 1 / t) (th p O) (-1).
Proof.
  exists slepc1, inv_prob, (one_state false), (solved1 inv_prob). eexists _, _.
  assert (A : sens_matrix inv_prob ee_dA O O O = 1)
    by (apply (sens_one _ _ _ _ _ ee_dA O (fun _ => 1)); auto).
  assert (B : sens_matrix inv_prob ee_dB O O O = 2).
  { unfold inv_prob. rewrite (sens_one _ _ _ _ _ ee_dB O (fun t => 2 * t O)); auto; ring. }
  assert (VA : assembleA inv_prob O O = 1) by (unfold inv_prob; rewrite one_A; reflexivity).
  assert (VB : assembleB inv_prob O O = 1) by (unfold inv_prob; rewrite one_B; cbn; ring).
  split; [reflexivity|]. split; [exact slepc1_exact|]. split; [intros l Hl; discriminate|].
  split; [exact inv_diff|].
  split; [intros e k l [<-|[]] _ _; split; reflexivity|].
  split; [apply solve1; [reflexivity|lra]|].
  split.
  - unfold solved1. rewrite sens1; [|reflexivity|reflexivity|lra]. rewrite A, B, VA, VB. do 2 f_equal. f_equal. field.
  - split.
    + rewrite sens1; [|reflexivity|reflexivity|lra]. rewrite A, B. do 2 f_equal. f_equal. field.
    + cbn. auto_derive; [lra|field].
Qed.
(** If the parameter does not affect B, as a stiffness parameter, the next call of either
    eigenproblem_sensitivity_solve or get_eigenpair fails. *)
Theorem C117_after_stiffness_parameter_refuted : exists slepc p s s1 s2 q, kind s = GHEP /\ exact_solver slepc /\
  condensed_ok p s /\ eigenproblem_solve slepc p s = Ok s1 /\
  eigenproblem_sensitivity_solve p s1 O None = Ok (q, s2) /\
  eigenproblem_sensitivity_solve p s2 O None = Fault AssertFailed /\
  get_eigenpair p s2 O = Fault AssertFailed.
Proof.
  set (p := one_prob (fun t => t O) (fun _ => 1) (fun _ => 1) (fun _ => 0) (fun _ => 1)).
  exists slepc1, p, (one_state false), (solved1 p). eexists _, _.
  assert (B : sens_matrix p ee_dB O O O = 0)
    by (apply (sens_one _ _ _ _ _ ee_dB O (fun _ => 0)); auto).
  assert (VB : assembleB p O O = 1) by (unfold p; rewrite one_B; reflexivity).
  split; [reflexivity|]. split; [exact slepc1_exact|]. split; [intros l Hl; discriminate|].
  split; [apply solve1; [reflexivity|lra]|].
  split; [unfold solved1; apply sens1; [reflexivity|reflexivity|lra]|].
  assert (G : forall lam A, get_eigenpair p (mkES GHEP false None 1 1 A (Some (sens_matrix p ee_dB O)) [((lam, 0), fun _ => 1)]) O = Fault AssertFailed).
  { intros lam A. unfold get_eigenpair. cbn [pairs nth_error condensed exchange kind matB bind].
    rewrite dot_quad. unfold quad_form. change (n (dofs p)) with 1%nat. cbn [sum]. rewrite B. unfold rgt.
    rewrite (proj2 (rltb_false _ _)); [reflexivity|lra]. }
  split; [|apply G].
  unfold eigenproblem_sensitivity_solve.
  cbn [n_conv Nat.eqb negb assert_ indices_for n_req Nat.min seq bind right_vectors].
  rewrite G. reflexivity.
Qed.
(** A new eigenvalue analysis restores the matrices: the sensitivities are those of C116 again. *)
Theorem C117_after_new_analysis_partial : forall slepc p s s1 f ind q s2 s3, kind s = GHEP ->
  eigenproblem_solve slepc p s = Ok s1 -> eigenproblem_sensitivity_solve p s1 f ind = Ok (q, s2) ->
  eigenproblem_solve slepc p s2 = Ok s3 -> s3 = s1.
Proof.
  intros slepc p s s1 f ind q s2 s3 K H1 HS H3.
  destruct (solve_state slepc p s s1 K H1) as (K1 & X1 & C1 & N1 & A1 & B1 & L1 & _ & P1).
  assert (E : kind s2 = GHEP /\ exchange s2 = exchange s1 /\ condensed s2 = condensed s1 /\ n_req s2 = n_req s1).
  { unfold eigenproblem_sensitivity_solve in HS. destruct (n_conv s1 =? 0)%nat; [discriminate|]. cbn [negb assert_] in HS.
    destruct (indices_for s1 ind); [|discriminate]. cbn [bind] in HS.
    destruct (right_vectors p s1 a); [|discriminate]. cbn [bind] in HS.
    unfold eigenproblem_sensitivity_assemble in HS. rewrite B1 in HS.
    destruct (has_base p && _); [discriminate|]. cbn [bind] in HS.
    destruct (all_sens _ _ _); [|discriminate]. cbn [bind] in HS. injection HS as _ <-. cbn. auto. }
  destruct E as (K2 & X2 & C2 & N2).
  destruct (solve_state slepc p s2 s3 K2 H3) as (K3 & X3 & C3 & N3 & A3 & B3 & L3 & _ & P3).
  cbv zeta in P1, P3. rewrite X2, C2, N2, X1, C1, N1 in P3. rewrite <- P1 in P3.
  rewrite X2 in X3. rewrite C2 in C3. rewrite N2 in N3. rewrite P3 in L3. rewrite <- L1 in L3.
  destruct s1, s3; cbn in *. subst. congruence.
Qed.

(** ** C118 constrained dofs in eigenvectors *)
Theorem C118_fixed_dofs_partial : forall slepc p s s' i v x, kind s = GHEP -> exact_solver slepc -> condensed_ok p s ->
  eigenproblem_solve slepc p s = Ok s' -> get_eigenpair p s' i = Ok (v, x) ->
  forall d, (d < n (dofs p))%nat -> row (dofs p) d = Some [] -> ~ free_dofs s d ->
    x d = enforce (dofs p) x d.
Proof.
  intros slepc p s s' i v x K EX CO H G d Hd R F.
  destruct (C115_eigenpairs slepc p s s' i v x K EX CO H G) as (_ & [Z _] & _).
  rewrite (Z d Hd F). unfold enforce. now rewrite R.
Qed.
(** two dofs, the second hanging on the first *)
Definition hang_sys : sys := mkSys 2 1 [] [] (fun _ => false)
  (fun d => match d with 1%nat => Some [(0%nat, 1)] | _ => None end) (fun _ => false) None.
Definition hang_prob : prob := mkProb hang_sys [mkEE [0%nat] (fun _ _ _ _ => 1) (fun _ _ _ _ => 1)
  (fun _ _ _ _ _ _ _ => 0) (fun _ _ _ _ _ _ _ => 0)] (fun _ => 0) None None.
(** A hanging dof is left at zero instead of following the dofs it hangs on. *)
Theorem C118_hanging_dof_refuted : exists slepc p s s' v x d, kind s = GHEP /\ exact_solver slepc /\
  condensed_ok p s /\ s = initialize_condensed_dofs (dofs p) [] (mkES GHEP false None 1 0 mzero (Some mzero) []) /\
  eigenproblem_solve slepc p s = Ok s' /\ get_eigenpair p s' O = Ok (v, x) /\
  constrained (dofs p) d = true /\ x d <> enforce (dofs p) x d.
Proof.
  set (s := initialize_condensed_dofs hang_sys [] (mkES GHEP false None 1 0 mzero (Some mzero) [])).
  assert (CD : condensed s = Some [0%nat]) by reflexivity.
  assert (VB : assembleB hang_prob O O = 1).
  { rewrite asmB_eq. cbn [els hang_prob]. unfold total; cbn [map lsum fold_right]. unfold mctr, coef. cbn -[Rplus Rmult].
    unfold dof; cbn -[Rplus Rmult]. ring. }
  assert (VA : assembleA hang_prob O O = 1).
  { rewrite asmA_eq. cbn [els hang_prob]. unfold total; cbn [map lsum fold_right]. unfold mctr, coef. cbn -[Rplus Rmult].
    unfold dof; cbn -[Rplus Rmult]. ring. }
  assert (CO : condensed_ok hang_prob s).
  { intros l Hl. rewrite CD in Hl. injection Hl as <-. split; [constructor; [intros []|constructor]|].
    intros i [<-|[]]. cbn. lia. }
  assert (S : eigenproblem_solve slepc1 hang_prob s =
    Ok (mkES GHEP false (Some [0%nat]) 1 1 (assembleA hang_prob) (Some (assembleB hang_prob)) [((assembleA hang_prob O O / assembleB hang_prob O O, 0), fun _ => 1)])).
  { unfold eigenproblem_solve. cbn -[assembleA assembleB slepc1]. unfold slepc1.
    change (1 =? 1)%nat with true. cbv iota. unfold sub. cbn [nth].
    rewrite (proj2 (reqb_false _ _)) by (rewrite VB; lra). reflexivity. }
  pose proof (C115_available slepc1 hang_prob s _ O _ _ (scatter [0%nat] (fun _ => 1)) eq_refl slepc1_exact CO S eq_refl eq_refl) as AV.
  assert (SC : forall k, scatter [0%nat] (fun _ => 1) k = if (k =? 0)%nat then 1 else 0)
    by (intros [|k]; reflexivity).
  assert (Q : quad_form (n (dofs hang_prob)) (assembleB hang_prob) (scatter [0%nat] (fun _ => 1)) = 1).
  { unfold quad_form. change (n (dofs hang_prob)) with 2%nat. cbn [sum]. rewrite !SC. cbn [Nat.eqb]. rewrite VB. ring. }
  rewrite Q in AV. destruct (AV ltac:(lra) ltac:(discriminate)) as (v & x & G & _ & X).
  exists slepc1, hang_prob, s. eexists. exists v, x, 1%nat.
  split; [reflexivity|]. split; [exact slepc1_exact|]. split; [exact CO|]. split; [reflexivity|].
  split; [exact S|]. split; [exact G|]. split; [reflexivity|].
  unfold enforce; cbn. rewrite !X, !SC. cbn [Nat.eqb]. rewrite sqrt_1. lra.
Qed.
(** Without initialize_condensed_dofs every constrained dof that an element refers to adds a spurious
    eigenpair with eigenvalue 1. *)
Theorem C118_spurious : forall p d, row (dofs p) d <> None ->
  (forall c r j w, row (dofs p) c = Some r -> In (j, w) r -> row (dofs p) j = None) ->
  eigenpair (n (dofs p)) (assembleA p) (assembleB p) (fun _ => True) 1 (fun i => if (i =? d)%nat then 1 else 0).
Proof.
  intros p d Hd W. split; [tauto|]. intros i Hi _. rewrite Rmult_1_l.
  assert (CD : constrained (dofs p) d = true) by (unfold constrained; destruct (row (dofs p) d); congruence).
  assert (Z : forall c, coef (dofs p) c d = 0).
  { intros c. unfold coef. destruct (row (dofs p) c) as [r|] eqn:Er.
    - apply (total_0 (fun e => if (fst e =? d)%nat then snd e else 0)). intros [j w] Hj. cbn.
      destruct (Nat.eqb_spec j d); auto. subst. pose proof (W c r d w Er Hj). congruence.
    - destruct (Nat.eqb_spec c d); auto. subst. congruence. }
  apply sum_ext. intros j Hj. destruct (Nat.eqb_spec j d) as [->|]; [|ring]. f_equal.
  rewrite asmA_eq, asmB_eq. apply total_ext. intros e _. unfold mctr.
  destruct (constrained (dofs p) i); auto.
  rewrite !(sum_0 (length (ee_dofs e))); auto; intros k _; apply sum_0; intros l _; rewrite Z; ring.
Qed.

(** ** C119 kinds of problem, and subsets of the eigenvalues *)
(** A problem that is not generalized never gets through eigenproblem_solve. *)
Theorem C119_standard_refuted : forall slepc p s, generalized (kind s) = false ->
  exists f, eigenproblem_solve slepc p s = Fault f.
Proof.
  intros slepc p s K. unfold eigenproblem_solve. destruct (n_req s =? 0)%nat; [eexists; reflexivity|].
  cbn [negb assert_]. unfold eigenproblem_assemble. destruct (matB s); [|eexists; reflexivity]. cbn [bind].
  unfold with_mats. cbn [condensed kind matB]. rewrite K. destruct (condensed s) as [l|]; [|eexists; reflexivity].
  destruct (length l =? 0)%nat; eexists; reflexivity.
Qed.
(** With matrix_B created as init_data does, the cause is the null matrix_B. *)
Theorem C119_standard_null : forall slepc p k nr, generalized k = false -> nr <> 0%nat ->
  eigenproblem_solve slepc p (mkES k false None nr 0 (matA (init k false)) (matB (init k false)) []) = Fault NullDeref.
Proof.
  intros slepc p k nr K N. unfold eigenproblem_solve. cbn [n_req]. apply Nat.eqb_neq in N. rewrite N. cbn [negb assert_].
  unfold eigenproblem_assemble, init. cbn [matB]. rewrite K. reflexivity.
Qed.
(** Eigenvectors of non-Hermitian problems cannot be retrieved. *)
Theorem C119_nonhermitian : forall p s i, kind s <> HEP -> kind s <> GHEP ->
  exists f, get_eigenpair p s i = Fault f.
Proof.
  intros p s i K1 K2. unfold get_eigenpair. destruct (nth_error (pairs s) i) as [[mu y]|]; [|eexists; reflexivity].
  match goal with |- context [bind ?m _] => destruct m as [x|f] end; cbn [bind]; [|eexists; reflexivity].
  destruct (if exchange s then cinv mu else Ok mu) as [w|f]; cbn [bind]; [|eexists; reflexivity].
  destruct (kind s); try (eexists; reflexivity); congruence.
Qed.
(** The sensitivities are listed in the order of the requested indices; a request for fewer than all
    converged eigenvalues is refused. *)
Theorem C119_indices : forall p s f ind q s' B, kind s = GHEP -> matB s = Some B ->
  eigenproblem_sensitivity_solve p s f ind = Ok (q, s') ->
  length q = Nat.min (n_req s) (n_conv s) /\
  forall k i, (match ind with Some l => nth_error l k | None => if (k <? length q)%nat then Some k else None end) = Some i ->
    (i < Nat.min (n_req s) (n_conv s))%nat /\
    exists v x, get_eigenpair p s i = Ok (v, x) /\
      nth_error q k = Some ((quad_form (n (dofs p)) (sens_matrix p ee_dA f) x
          - fst v * quad_form (n (dofs p)) (sens_matrix p ee_dB f) x) / quad_form (n (dofs p)) B x).
Proof.
  intros p s f ind q s' B K MB H. destruct (sens_solve_nth p s f ind q s' B K MB H) as (l & I & L & _ & _ & _ & Q).
  unfold indices_for in I. destruct ind as [l0|].
  - destruct (length l0 =? Nat.min (n_req s) (n_conv s))%nat eqn:E; [|discriminate].
    cbn [assert_] in I. destruct (forallb _ l0) eqn:F; [|discriminate]. injection I as <-.
    apply Nat.eqb_eq in E. split; [lia|]. intros k i Hk. split; [|exact (Q k i Hk)].
    rewrite forallb_forall in F. apply nth_error_In in Hk. apply F in Hk. now apply Nat.ltb_lt in Hk.
  - injection I as <-. rewrite seq_length in L. split; [exact L|]. intros k i Hk.
    destruct (k <? length q)%nat eqn:E; [|discriminate]. injection Hk as <-. apply Nat.ltb_lt in E.
    split; [lia|]. apply Q. rewrite nth_error_nth' with (d := O) by (rewrite seq_length; lia).
    f_equal. rewrite seq_nth; lia.
Qed.
Theorem C119_subset_refuted : forall p s f l, n_conv s <> 0%nat ->
  (length l < Nat.min (n_req s) (n_conv s))%nat ->
  eigenproblem_sensitivity_solve p s f (Some l) = Fault AssertFailed.
Proof.
  intros p s f l N L. unfold eigenproblem_sensitivity_solve. apply Nat.eqb_neq in N. rewrite N. cbn [negb assert_].
  unfold indices_for. destruct (Nat.eqb_spec (length l) (Nat.min (n_req s) (n_conv s))); [lia|]. reflexivity.
Qed.

(** ** C120 the dofs the eigenproblem is posed on *)
Theorem C120_condensed : forall S dirichlet s l, condensed (initialize_condensed_dofs S dirichlet s) = Some l ->
  NoDup l /\
  (forall i, In i l <-> (i < n S)%nat /\ row S i = None /\ ~ In i dirichlet) /\
  (forall j k, (j < k)%nat -> (k < length l)%nat -> (nth j l O < nth k l O)%nat).
Proof.
  intros S dirichlet s l H. cbn in H. injection H as <-.
  assert (ST : forall m a (P : nat -> bool), 
     let l := filter P (seq a m) in forall j k, (j < k)%nat -> (k < length l)%nat -> (nth j l O < nth k l O)%nat).
  { induction m as [|m IH]; intros a P; cbn; [intros; lia|].
    specialize (IH (Datatypes.S a) P). cbv zeta in IH. destruct (P a); auto.
    intros [|j] [|k] Hj Hk; try lia.
    - cbn [nth]. assert (I : In (nth k (filter P (seq (Datatypes.S a) m)) O) (filter P (seq (Datatypes.S a) m)))
        by (apply nth_In; cbn in Hk; lia).
      apply filter_In in I. destruct I as [I _]. apply in_seq in I. lia.
    - cbn [nth]. apply IH; cbn in Hk; lia. }
  assert (FF : forall P Q (m : list nat), filter P (filter Q m) = filter (fun i => Q i && P i) m).
  { intros P Q m. induction m as [|a m IH]; [reflexivity|]. cbn. destruct (Q a); cbn; [|auto].
    destruct (P a); now rewrite IH. }
  rewrite FF. split; [|split].
  - apply NoDup_filter, seq_NoDup.
  - intros i. rewrite filter_In, in_seq, andb_true_iff, !negb_true_iff. unfold constrained.
    split.
    + intros (I & C & D). split; [lia|]. split; [destruct (row S i); [discriminate|reflexivity]|].
      intros J. assert (existsb (Nat.eqb i) dirichlet = true); [|congruence].
      apply existsb_exists. exists i. split; auto. apply Nat.eqb_refl.
    + intros (I & C & D). split; [lia|]. rewrite C. split; [reflexivity|].
      destruct (existsb (Nat.eqb i) dirichlet) eqn:E; auto. apply existsb_exists in E.
      destruct E as (j & Hj & E). apply Nat.eqb_eq in E. subst. contradiction.
  - apply ST.
Qed.
(** so the dofs of the reduced problem are as C115 and C116 require *)
Theorem C120_suits : forall p dirichlet s, 
  condensed_ok p (initialize_condensed_dofs (dofs p) dirichlet s) /\
  forall i, free_dofs (initialize_condensed_dofs (dofs p) dirichlet s) i -> constrained (dofs p) i = false.
Proof.
  intros p dirichlet s. split.
  - intros l Hl. destruct (C120_condensed _ _ _ _ Hl) as (ND & I & _). split; auto. intros i Hi. now apply I.
  - intros i. unfold free_dofs. cbn [initialize_condensed_dofs condensed].
    destruct (C120_condensed (dofs p) dirichlet s _ eq_refl) as (_ & I & _). intros Hi. apply I in Hi.
    unfold constrained. destruct Hi as (_ & -> & _). reflexivity.
Qed.

(** Concrete case for C115 and C116: lambda = 1/p at p = 1. *)
Example C116_inverse : exists s' q s'', eigenproblem_solve slepc1 inv_prob (one_state false) = Ok s' /\
  eigenproblem_sensitivity_solve inv_prob s' O None = Ok (q, s'') /\
  exists v x, get_eigenpair inv_prob s' O = Ok (v, x) /\ fst v = 1 /\ x O = 1 /\
  (locally (th inv_prob O) (fun t => eigenpair 1 (assembleA (along inv_prob O (fun _ => zero) t))
      (assembleB (along inv_prob O (fun _ => zero) t)) (free_dofs (one_state false)) (1 / t) (fun _ => 1))) /\
  nth_error q O = Some (-1).
Proof.
  assert (VB : assembleB inv_prob O O = 1) by (unfold inv_prob; rewrite one_B; cbn; ring).
  assert (VA : assembleA inv_prob O O = 1) by (unfold inv_prob; rewrite one_A; reflexivity).
  assert (HS := solve1 inv_prob eq_refl ltac:(lra)).
  exists (solved1 inv_prob). eexists _, _. split; [exact HS|].
  split; [unfold solved1; apply sens1; [reflexivity|reflexivity|lra]|].
  assert (CO : condensed_ok inv_prob (one_state false)) by (intros l Hl; discriminate).
  pose proof (C115_available slepc1 inv_prob (one_state false) _ O _ _ (fun _ => 1) eq_refl slepc1_exact CO HS eq_refl eq_refl) as AV.
  assert (Q : quad_form (n (dofs inv_prob)) (assembleB inv_prob) (fun _ => 1) = 1).
  { unfold quad_form. change (n (dofs inv_prob)) with 1%nat. cbn [sum]. rewrite VB. ring. }
  rewrite Q in AV. destruct (AV ltac:(lra) ltac:(discriminate)) as (v & x & G & V & X).
  exists v, x. split; [exact G|]. cbn [one_state exchange fst] in V. rewrite VA, VB in V.
  assert (V1 : fst v = 1) by lra. assert (X1 : x O = 1) by (rewrite X, sqrt_1; field).
  split; [exact V1|]. split; [exact X1|].
  assert (EP : locally (th inv_prob O) (fun t => eigenpair 1 (assembleA (along inv_prob O (fun _ => zero) t))
      (assembleB (along inv_prob O (fun _ => zero) t)) (free_dofs (one_state false)) (1 / t) (fun _ => 1))).
  { exists (mkposreal 1 Rlt_0_1). intros t Ht.
    assert (P : 0 < t). { apply Rabs_def2 in Ht. unfold minus, plus, opp in Ht. cbn in Ht. lra. }
    split; [intros i _ F; exfalso; apply F; exact I|]. intros i Hi _. assert (i = O) by lia. subst. cbn [sum].
    change (along inv_prob O (fun _ => zero) t) with (one_prob (fun t => t O) (fun t => t O * t O) (fun _ => 1) (fun t => 2 * t O) (at_ (fun _ => 1) O t)).
    rewrite one_A, one_B. cbn. field. lra. }
  split; [exact EP|].
  assert (SS : eigenproblem_sensitivity_solve inv_prob (solved1 inv_prob) O None = Ok (_, _))
    by (unfold solved1; apply sens1; [reflexivity|reflexivity|lra]).
  apply (C116_eigenvalue_sensitivity slepc1 inv_prob (one_state false) (solved1 inv_prob) O None _ _ (fun _ => zero) [0%nat] O O v x
    (fun t => 1 / t) (fun _ _ => 1) (-1) (fun _ => 0) eq_refl slepc1_exact CO) with (1 := fun i _ _ => eq_refl) (2 := HS) (3 := SS);
    [exact inv_diff| | |reflexivity|reflexivity|exact G|rewrite V1; cbn; field| |exact EP| |intros; apply @is_derive_const].
  - intros e a b [<-|[]]. split; reflexivity.
  - intros e k l [<-|[]] _ _; split; reflexivity.
  - intros d Hd. cbn in Hd. assert (d = O) by lia. now subst.
  - cbn. auto_derive; [lra|field].
Qed.

Print Assumptions C115_eigenpairs.
Print Assumptions C115_available.
Print Assumptions C115_negative_exchange_refuted.
Print Assumptions C116_eigenvalue_sensitivity.
Print Assumptions C116_base_sensitivity_needed.
Print Assumptions C117_second_call_refuted.
Print Assumptions C117_after_stiffness_parameter_refuted.
Print Assumptions C117_after_new_analysis_partial.
Print Assumptions C118_fixed_dofs_partial.
Print Assumptions C118_hanging_dof_refuted.
Print Assumptions C118_spurious.
Print Assumptions C119_standard_refuted.
Print Assumptions C119_standard_null.
Print Assumptions C119_nonhermitian.
Print Assumptions C119_indices.
Print Assumptions C119_subset_refuted.
Print Assumptions C120_condensed.
Print Assumptions C120_suits.
Print Assumptions C116_base_solution.
