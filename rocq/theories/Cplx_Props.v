(** C24: the block complex solve. *)
From Coq Require Import Reals List Arith Lia Lra Bool.
From Verif Require Import Base BaseLemmas Accum Cplx_Model Cplx_Spec Cplx_Proofs.
Import ListNotations.
Open Scope R_scope.

(** element matrix and vector at the stored complex solution [z0] (zero in an analysis) *)
Definition at_sol (z0 : nat -> cpx) (e : celem) : nat -> cpx := fun i => z0 (e_dof e i).
Definition mat_at (z0 : nat -> cpx) (e : celem) : nat -> nat -> cpx := snd (e_calc e (at_sol z0 e)).
Definition vec_at (p : bool) (z0 : nat -> cpx) (e : celem) : nat -> cpx :=
  if p then e_sens e (at_sol z0 e) else fst (e_calc e (at_sol z0 e)).

Lemma C24_system : forall p X N es, in_range N es ->
  let z0 := fun a => (X (2 * a)%nat, X (2 * a + 1)%nat) in
  exists r J, residual_and_jacobian_blocked no_constraints p X N es = Ok (r, J) /\
    forall x, real_solves (2 * N) J (fun q => -1 * cell r q) x <->
      solves N (global_mat (mat_at z0) es) (global_vec (vec_at p z0) es) (fun a => (x (2 * a)%nat, x (2 * a + 1)%nat)).
Proof.
  intros p X N es Hr z0.
  destruct (assembled no_constraints p X N es Hr) as (r & J & E & Er & EJ).
  { intros. unfold m_I1, m_I2. simpl. ring. }
  exists r, J. split; [exact E|]. intros x.
  assert (G1 : forall a, global_vec (cvec no_constraints p X) es a = global_vec (vec_at p z0) es a).
  { intros a. unfold global_vec. f_equal. apply map_ext. intros e. f_equal. unfold cvec, v_R, v_I, elem_vec, vec_at, at_sol, local_sol, z0. simpl.
    apply FunctionalExtensionality.functional_extensionality. intros i. destruct (Nat.eqb _ _); auto. now rewrite <- surjective_pairing. }
  assert (G2 : forall a b, global_mat (cmat no_constraints X) es a b = global_mat (mat_at z0) es a b).
  { intros a b. unfold global_mat. f_equal. apply map_ext. intros e. f_equal.
    apply FunctionalExtensionality.functional_extensionality. intros i. f_equal.
    apply FunctionalExtensionality.functional_extensionality. intros j.
    unfold cmat, m_R, m_I2, elem_mat, mat_at, at_sol, local_sol, z0. simpl. destruct (_ && _); auto. now rewrite <- surjective_pairing. }
  apply block_iff; auto.
  - intros a Ha. rewrite <- G1. auto.
  - intros a b Ha Hb. rewrite <- G2. auto.
Qed.

(** C24, without constrained dofs: if the Krylov solver solves the assembled real system, the pair
    (real_solution, imag_solution) solves the complex system J z + r = 0 of the same elements; with a
    parameter it is the sensitivity pair and the state pair is untouched.  Missing: constrained dofs. *)
Theorem C24_block_solve_partial : forall ksp N es (p : bool) (s : csol),
  in_range N es ->
  let z0 : nat -> cpx := fun a => if p then (c_re s a, c_im s a) else (0, 0) in
  (forall J b, (exists x, real_solves (2 * N) J b x) -> real_solves (2 * N) J b (ksp J b)) ->
  (exists z, solves N (global_mat (mat_at z0) es) (global_vec (vec_at p z0) es) z) ->
  exists s', solve_block_matrix no_constraints ksp N es p s = Ok s' /\
    solves N (global_mat (mat_at z0) es) (global_vec (vec_at p z0) es)
      (fun a => if p then (c_re_sens s' a, c_im_sens s' a) else (c_re s' a, c_im s' a)) /\
    (if p then c_re s' = c_re s /\ c_im s' = c_im s
     else c_re_sens s' = c_re_sens s /\ c_im_sens s' = c_im_sens s).
Proof.
  intros ksp N es p s Hr z0 Hk (z & Hz). unfold solve_block_matrix.
  cbv zeta. match goal with |- context [residual_and_jacobian_blocked _ _ ?x _ _] => set (X := x) end.
  destruct (C24_system p X N es Hr) as (r & J & E & H). rewrite E. cbn [bind fst snd].
  assert (EX : (fun a => (X (2 * a)%nat, X (2 * a + 1)%nat)) = z0).
  { apply FunctionalExtensionality.functional_extensionality. intros a. unfold X, z0. destruct p; auto.
    assert (Ev : Nat.even (2 * a) = true) by (rewrite Nat.even_mul; reflexivity).
    assert (Od : Nat.even (2 * a + 1) = false).
    { rewrite Nat.add_1_r, Nat.even_succ. rewrite <- Nat.negb_even, Ev. reflexivity. }
    rewrite Ev, Od, Nat.div2_double. rewrite Nat.add_1_r, Nat.div2_succ_double. reflexivity. }
  rewrite EX in H.
  assert (Hx : real_solves (2 * N) J (fun q => -1 * cell r q) (ksp J (fun q => -1 * cell r q))).
  { apply Hk. exists (fun q => if Nat.even q then fst (z (Nat.div2 q)) else snd (z (Nat.div2 q))).
    apply H. match goal with |- solves _ _ _ ?w => replace w with z; [exact Hz|] end.
    apply FunctionalExtensionality.functional_extensionality. intros a.
    assert (Ev : Nat.even (2 * a) = true) by (rewrite Nat.even_mul; reflexivity).
    assert (Od : Nat.even (2 * a + 1) = false).
    { rewrite Nat.add_1_r, Nat.even_succ. rewrite <- Nat.negb_even, Ev. reflexivity. }
    rewrite Ev, Od, Nat.div2_double. rewrite Nat.add_1_r, Nat.div2_succ_double. apply surjective_pairing. }
  apply H in Hx. eexists. split; [reflexivity|].
  assert (G : forall zz, (forall a, (a < N)%nat -> zz a = (ksp J (fun q => -1 * cell r q) (2 * a)%nat, ksp J (fun q => -1 * cell r q) (2 * a + 1)%nat)) ->
     solves N (global_mat (mat_at z0) es) (global_vec (vec_at p z0) es) zz).
  { intros zz Hzz a Ha. rewrite <- (Hx a Ha). f_equal.
    assert (C : forall n, (n <= N)%nat -> csum n (fun b => cmul (global_mat (mat_at z0) es a b) (zz b)) =
      csum n (fun b => cmul (global_mat (mat_at z0) es a b) (ksp J (fun q => -1 * cell r q) (2 * b)%nat, ksp J (fun q => -1 * cell r q) (2 * b + 1)%nat))).
    { induction n; intros; simpl; auto. rewrite IHn by lia. rewrite Hzz by lia. reflexivity. }
    now apply C. }
  split.
  - apply G. intros a Ha. apply Nat.ltb_lt in Ha. destruct p; cbn [c_re c_im c_re_sens c_im_sens]; now rewrite Ha.
  - destruct p; auto.
Qed.
Print Assumptions C24_block_solve_partial.

(** Conversely the real system has exactly the interleaved complex solutions. *)
Theorem C24_equivalent_system : forall p X N es, in_range N es ->
  let z0 := fun a => (X (2 * a)%nat, X (2 * a + 1)%nat) in
  exists r J, residual_and_jacobian_blocked no_constraints p X N es = Ok (r, J) /\
    forall x, real_solves (2 * N) J (fun q => -1 * cell r q) x <->
      solves N (global_mat (mat_at z0) es) (global_vec (vec_at p z0) es) (fun a => (x (2 * a)%nat, x (2 * a + 1)%nat)).
Proof. exact C24_system. Qed.
Print Assumptions C24_equivalent_system.

(** (1 + 2i) z + (3 - i) = 0 on one dof, shared by two elements *)
Definition ex_e (v m : cpx) : celem := mkE 1 (fun _ => 0%nat) (fun _ => (fun _ => v, fun _ _ => m)) (fun _ _ => v).
Definition ex_es : list celem := [ex_e (1, 0) (1, 1); ex_e (2, -1) (0, 1)].
Example C24_nonvacuous : in_range 1 ex_es /\
  (exists z, solves 1 (global_mat (mat_at (fun _ => (0,0))) ex_es) (global_vec (vec_at false (fun _ => (0,0))) ex_es) z).
Proof.
  split.
  - intros e i [<-|[<-|[]]] _; simpl; lia.
  - exists (fun _ => (-1/5, 7/5)). intros a Ha. assert (a = 0%nat) by lia. subst.
    unfold global_mat, global_vec, mat_at, vec_at, at_sol, ex_es, ex_e, cadd, cmul, c0. simpl. f_equal; field.
Qed.

(** With a constrained dof the claim is false: the unit diagonal that libMesh puts into a constrained row is put
    into the real and into both imaginary blocks, so that the interleaved system never determines the constrained
    pair: one may add (t, -t) to it. *)
Theorem C24_constrained_dof_refuted : forall (c : nat -> bool) p X N es a,
  in_range N es -> c a = true -> (a < N)%nat ->
  exists r J, residual_and_jacobian_blocked (dirichlet c) p X N es = Ok (r, J) /\
    forall b x t, real_solves (2 * N) J b x ->
      real_solves (2 * N) J b (fun q => x q + (if Nat.eqb q (2 * a) then t else if Nat.eqb q (2 * a + 1) then - t else 0)).
Proof.
  intros c p X N es a Hr Hc Ha. unfold residual_and_jacobian_blocked.
  destruct (add_vecs_adds (dirichlet c) p X N es Hr (fill (2 * N) 0) eq_refl) as (r & -> & _ & _).
  destruct (add_mats_adds (dirichlet c) X N es Hr (mfill (2 * N) (2 * N) 0) eq_refl eq_refl) as (J & -> & _ & _ & EJ).
  simpl bind. exists r, J. split; [reflexivity|]. intros b x t Hx i Hi.
  assert (EQ : ent J i (2 * a) = ent J i (2 * a + 1)).
  { rewrite !EJ by lia. f_equal. f_equal. apply map_ext_in. intros e He. apply sum_ext. intros k Hk.
    apply sum_ext. intros j Hj. rewrite eqb_ee, eqb_oo, eqb_eo, eqb_oe.
    destruct (Nat.eqb_spec (e_dof e j) a) as [Ej|]; rewrite ?andb_false_r, ?andb_true_r; [|ring].
    unfold m_R, m_I1, m_I2. cbn [dirichlet k_mat].
    rewrite Ej, Hc, orb_true_r. destruct (Nat.eqb i (2 * e_dof e k)), (Nat.eqb i (2 * e_dof e k + 1)); ring. }
  rewrite (sum_ext _ _ (fun j => ent J i j * x j +
      ent J i j * (if Nat.eqb j (2 * a) then t else if Nat.eqb j (2 * a + 1) then - t else 0))) by (intros; ring).
  rewrite sum_plus, (Hx i Hi).
  rewrite (sum_ext _ (fun j => ent J i j * (if Nat.eqb j (2 * a) then t else if Nat.eqb j (2 * a + 1) then - t else 0))
    (fun j => (if Nat.eqb j (2 * a) then ent J i (2 * a) * t else 0) + (if Nat.eqb j (2 * a + 1) then ent J i (2 * a + 1) * - t else 0))).
  - rewrite sum_plus.
    rewrite (sum_single (2 * N) (2 * a)) by (try lia; intros k _ Hk; apply Nat.eqb_neq in Hk; now rewrite Hk).
    rewrite (sum_single (2 * N) (2 * a + 1)) by (try lia; intros k _ Hk; apply Nat.eqb_neq in Hk; now rewrite Hk).
    rewrite !Nat.eqb_refl, EQ. ring.
  - intros j Hj. destruct (Nat.eqb_spec j (2 * a)) as [->|].
    + rewrite eqb_eo. ring.
    + destruct (Nat.eqb_spec j (2 * a + 1)) as [->|]; ring.
Qed.
Print Assumptions C24_constrained_dof_refuted.
