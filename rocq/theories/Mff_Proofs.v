From Coq Require Import Reals Lra Lia.
From Coquelicot Require Import Coquelicot.
From Coq Require Import List Arith Bool.
From Verif Require Import Base BaseLemmas RBool Heat_Proofs Sens_Proofs2 Solid_Proofs2 Mff_Model Mff_Spec.
Import ListNotations.
Open Scope R_scope.

Section MF.
Variables (n_vars n_dofs : nat) (point : Type) (inside : point -> bool) (shape : point -> nat -> nat -> R) (dshape : point -> nat -> nat -> nat -> R).
Variables (p_type : ptype) (dbg : bool).
Notation run := (mrun p_type dbg).
Notation step := (mstep p_type dbg).

Lemma run_app s a b : run s (a ++ b) = run (run s a) b.
Proof. unfold mrun. apply fold_left_app. Qed.
Lemma run_cons s o a : run s (o :: a) = run (fst (step s o)) a.
Proof. reflexivity. Qed.
Lemma step_heap s o : m_heap (fst (step s o)) = owner (m_heap s) o.
Proof.
  destruct o; cbn; try reflexivity.
  - unfold init. destruct (dbg && _); [reflexivity|]. destruct (init_sol_func _ _ _ _ _); reflexivity.
  - unfold init_sens. destruct (dbg && _); [reflexivity|]. destruct (init_sol_func _ _ _ _ _); reflexivity.
Qed.
Lemma run_heap ops : forall s, m_heap (run s ops) = vectors (m_heap s) ops.
Proof.
  induction ops as [|o ops IH]; intros s; [reflexivity|]. rewrite run_cons, IH, step_heap. reflexivity.
Qed.
(** the quadrature point solution *)
Definition qp_of (s : mstate) : option vec := if m_use s then Some (m_qp s) else None.
Lemma step_qp s o : qp_of (fst (step s o)) = match o with OSetQp v => Some v | OClearQp | OClear => None | _ => qp_of s end.
Proof.
  destruct o; cbn; try reflexivity.
  - unfold init. destruct (dbg && _); [reflexivity|]. destruct (init_sol_func _ _ _ _ _); reflexivity.
  - unfold init_sens. destruct (dbg && _); [reflexivity|]. destruct (init_sol_func _ _ _ _ _); reflexivity.
Qed.
Lemma run_qp ops : forall s, qp_of (run s ops) = fold_left (fun q o => match o with OSetQp v => Some v | OClearQp | OClear => None | _ => q end) ops (qp_of s).
Proof. induction ops as [|o ops IH]; intros s; [reflexivity|]. rewrite run_cons, IH, step_qp. reflexivity. Qed.
Lemma force_use h ops : in_force ops = qp_of (run (fresh h) ops).
Proof. symmetry. apply run_qp. Qed.
Lemma force_none h ops : in_force ops = None -> m_use (run (fresh h) ops) = false.
Proof. rewrite (force_use h). unfold qp_of. destruct (m_use _); [discriminate|reflexivity]. Qed.
Lemma force_some h ops v : in_force ops = Some v -> m_use (run (fresh h) ops) = true /\ m_qp (run (fresh h) ops) = v.
Proof. rewrite (force_use h). unfold qp_of. destruct (m_use _); [intros [= <-]; auto|discriminate]. Qed.
(** the function *)
Definition has_fn (s : mstate) : bool := match m_fn s with Some _ => true | None => false end.
Lemma step_started s o : has_fn (fst (step s o)) = match o with OInit _ _ => true | OClear => false | _ => has_fn s end.
Proof.
  destruct o; cbn; try reflexivity.
  - unfold init. fold (has_fn s). destruct (dbg && has_fn s) eqn:E; [apply andb_true_iff in E; apply E|]. destruct (init_sol_func _ _ _ _ _); reflexivity.
  - unfold init_sens. destruct (dbg && _); [reflexivity|]. destruct (init_sol_func _ _ _ _ _); reflexivity.
Qed.
Lemma run_started ops : forall s, has_fn (run s ops) = fold_left (fun b o => match o with OInit _ _ => true | OClear => false | _ => b end) ops (has_fn s).
Proof. induction ops as [|o ops IH]; intros s; [reflexivity|]. rewrite run_cons, IH, step_started. reflexivity. Qed.
Lemma not_started h ops : started ops = false -> m_fn (run (fresh h) ops) = None.
Proof. intros H. pose proof (run_started ops (fresh h)) as E. unfold started in H. cbn [has_fn fresh m_fn] in E. rewrite H in E. unfold has_fn in E. destruct (m_fn _); [discriminate|reflexivity]. Qed.
Lemma keep_fn ops : no_init ops -> forall s, m_fn (run s ops) = m_fn s.
Proof.
  induction ops as [|o ops IH]; intros H s; [reflexivity|]. rewrite run_cons, IH by (intros o' Ho; apply H; now right).
  specialize (H o (or_introl eq_refl)). destruct o; cbn in *; try reflexivity; try contradiction.
  unfold init_sens. destruct (dbg && _); [reflexivity|]. destruct (init_sol_func _ _ _ _ _); reflexivity.
Qed.
Lemma step_pert s o : m_pert s = None -> m_pert (fst (step s o)) = None.
Proof.
  intros H. destruct o; cbn; auto.
  - unfold init. destruct (dbg && _); [auto|]. destruct (init_sol_func _ _ _ _ _); auto.
  - unfold init_sens. destruct (dbg && _); [auto|]. destruct (init_sol_func _ _ _ _ _); auto.
Qed.
Lemma run_pert ops : forall s, m_pert s = None -> m_pert (run s ops) = None.
Proof. induction ops as [|o ops IH]; intros s H; [auto|]. rewrite run_cons. apply IH. now apply step_pert. Qed.
(** sensitivities *)
Lemma keep_sens f ops : no_sens f ops -> forall s, lookup f (m_sens (run s ops)) = lookup f (m_sens s).
Proof.
  induction ops as [|o ops IH]; intros H s; [reflexivity|]. rewrite run_cons, IH by (intros o' Ho; apply H; now right).
  specialize (H o (or_introl eq_refl)). destruct o; cbn in *; try reflexivity; try contradiction.
  - unfold init. destruct (dbg && _); [reflexivity|]. destruct (init_sol_func _ _ _ _ _); reflexivity.
  - unfold init_sens. destruct (dbg && _); [reflexivity|]. destruct (init_sol_func _ _ _ _ _); [|reflexivity]. cbn [fst m_sens lookup].
    destruct (Nat.eqb_spec f f0) as [->|]; [contradiction|reflexivity].
Qed.
Lemma not_attempted f h ops : attempted f ops = false -> lookup f (m_sens (run (fresh h) ops)) = None.
Proof.
  unfold attempted. assert (G : forall ops s b, (b = false -> lookup f (m_sens s) = None) ->
    fold_left (fun b o => match o with OInitSens g _ _ => (f =? g)%nat || b | OClear => false | _ => b end) ops b = false -> lookup f (m_sens (run s ops)) = None).
  { clear. induction ops as [|o ops IH]; intros s b Hb H; [now apply Hb|]. rewrite run_cons. cbn [fold_left] in H. eapply IH; [|exact H].
    destruct o; cbn; auto.
    - intros ->. unfold init. destruct (dbg && _); [auto|]. destruct (init_sol_func _ _ _ _ _); auto.
    - intros E. apply orb_false_iff in E. destruct E as [E1 E2]. unfold init_sens. destruct (dbg && _); [auto|]. destruct (init_sol_func _ _ _ _ _); [|auto]. cbn. rewrite E1. auto. }
  apply G. reflexivity.
Qed.
Lemma init_ok s id reuse src : m_fn s = None -> init_sol_func p_type dbg (m_heap s) reuse id = Ok src -> m_fn (fst (step s (OInit id reuse))) = Some (Some src).
Proof. intros H E. cbn. unfold init. rewrite H, andb_false_r, E. reflexivity. Qed.
Lemma sens_ok s f id reuse src : lookup f (m_sens s) = None -> init_sol_func p_type dbg (m_heap s) reuse id = Ok src -> lookup f (m_sens (fst (step s (OInitSens f id reuse)))) = Some src.
Proof. intros H E. cbn. unfold init_sens. rewrite H, andb_false_r, E. cbn. now rewrite Nat.eqb_refl. Qed.
(** evaluations *)
Lemma eval_at s src v p : contents s src = Ok v -> inside p = true ->
  exists w, eval n_vars n_dofs point inside shape dbg s src p = Ok w /\ forall i, (i < n_vars)%nat -> w i = field n_dofs shape v p i.
Proof.
  intros C I. unfold eval. rewrite C, I. cbn [bind]. eexists. split; [reflexivity|]. intros i Hi. cbn beta. rewrite (proj2 (Nat.ltb_lt i n_vars) Hi). reflexivity.
Qed.
Lemma eval_grad_at s src v p : contents s src = Ok v -> inside p = true ->
  exists w, eval_grad n_vars n_dofs point inside dshape dbg s src p = Ok (n_vars, 3%nat, w) /\ forall i j, (i < n_vars)%nat -> (j < 3)%nat -> w i j = field_grad n_dofs dshape v p i j.
Proof.
  intros C I. unfold eval_grad. rewrite C, I. cbn [bind]. eexists. split; [reflexivity|]. intros i j Hi Hj. cbn beta. rewrite (proj2 (Nat.ltb_lt i n_vars) Hi), (proj2 (Nat.ltb_lt j 3) Hj). reflexivity.
Qed.
End MF.

(** complex functions *)
Section CF.
Variable dbg : bool.
Notation run := (crun dbg).
Notation step := (cstep dbg).
Lemma crun_cons s o a : run s (o :: a) = run (fst (step s o)) a. Proof. reflexivity. Qed.
Lemma crun_app s a b : run s (a ++ b) = run (run s a) b. Proof. unfold crun. apply fold_left_app. Qed.
Lemma cstep_heap s o : c_heap (fst (step s o)) = cowner (c_heap s) o.
Proof.
  destruct o; cbn; try reflexivity.
  - unfold c_init. destruct (dbg && _); [reflexivity|]. destruct (read2 _ _ _); reflexivity.
  - unfold c_init_perturbation. destruct (dbg && _); [reflexivity|]. destruct (read2 _ _ _); reflexivity.
Qed.
Lemma crun_heap ops : forall s, c_heap (run s ops) = cvectors (c_heap s) ops.
Proof. induction ops as [|o ops IH]; intros s; [reflexivity|]. rewrite crun_cons, IH, cstep_heap. reflexivity. Qed.
Lemma ckeep ops : c_quiet ops -> forall s, c_fn (run s ops) = c_fn s.
Proof.
  induction ops as [|o ops IH]; intros H s; [reflexivity|]. rewrite crun_cons, IH by (intros o' Ho; apply H; now right).
  specialize (H o (or_introl eq_refl)). destruct o; cbn in *; try reflexivity; try contradiction.
  unfold c_init_perturbation. destruct (dbg && _); [reflexivity|]. destruct (read2 _ _ _); reflexivity.
Qed.
Lemma pkeep ops : p_quiet ops -> forall s, c_pert (run s ops) = c_pert s.
Proof.
  induction ops as [|o ops IH]; intros H s; [reflexivity|]. rewrite crun_cons, IH by (intros o' Ho; apply H; now right).
  specialize (H o (or_introl eq_refl)). destruct o; cbn in *; try reflexivity; try contradiction.
  unfold c_init. destruct (dbg && _); [reflexivity|]. destruct (read2 _ _ _); reflexivity.
Qed.
Lemma c_not_started h ops : c_started ops = false -> c_fn (run (mkCS h None None) ops) = None.
Proof.
  unfold c_started. assert (G : forall ops s b, (b = false -> c_fn s = None) ->
    fold_left (fun b o => match o with CInit _ _ => true | CClear => false | _ => b end) ops b = false -> c_fn (run s ops) = None).
  { clear. induction ops as [|o ops IH]; intros s b Hb H; [now apply Hb|]. rewrite crun_cons. cbn [fold_left] in H. eapply IH; [|exact H].
    destruct o; cbn; auto; try discriminate. intros E. unfold c_init_perturbation. destruct (dbg && _); [auto|]. destruct (read2 _ _ _); auto. }
  apply G. reflexivity.
Qed.
Lemma p_not_started h ops : p_started ops = false -> c_pert (run (mkCS h None None) ops) = None.
Proof.
  unfold p_started. assert (G : forall ops s b, (b = false -> c_pert s = None) ->
    fold_left (fun b o => match o with CPert _ _ => true | CClear => false | _ => b end) ops b = false -> c_pert (run s ops) = None).
  { clear. induction ops as [|o ops IH]; intros s b Hb H; [now apply Hb|]. rewrite crun_cons. cbn [fold_left] in H. eapply IH; [|exact H].
    destruct o; cbn; auto; try discriminate. intros E. unfold c_init. destruct (dbg && _); [auto|]. destruct (read2 _ _ _); auto. }
  apply G. reflexivity.
Qed.
End CF.
