(** C171, C172, C173: functions that interpolate a stored solution.  For every history of calls, vector contents,
    mesh and point. *)
From Coq Require Import Reals Lra Lia.
From Coquelicot Require Import Coquelicot.
From Coq Require Import List Arith Bool.
From Verif Require Import Base BaseLemmas RBool Heat_Proofs Sens_Proofs2 Solid_Proofs2 Mff_Model Mff_Spec Mff_Proofs.
Import ListNotations.
Open Scope R_scope.

Section Real.
Variables (n_vars n_dofs : nat) (point : Type) (inside : point -> bool) (shape : point -> nat -> nat -> R) (dshape : point -> nat -> nat -> nat -> R).
Variables (p_type : ptype) (dbg : bool) (h0 : heap).
Notation after := (mrun p_type dbg (fresh h0)).
Notation value := (value n_vars n_dofs point inside shape dbg).
Notation gradient := (gradient n_vars n_dofs point inside dshape dbg).
Notation derivative := (derivative n_vars n_dofs point inside shape dbg).
Notation derivative_gradient := (derivative_gradient n_vars n_dofs point inside dshape dbg).
Notation perturbation := (perturbation n_vars n_dofs point inside shape dbg).
Notation perturbation_gradient := (perturbation_gradient n_vars n_dofs point inside dshape dbg).

(** ** C171 *)
Lemma fn_after h1 id reuse h2 src : started h1 = false -> no_init h2 ->
  init_sol_func p_type dbg (vectors h0 h1) reuse id = Ok src -> m_fn (after (h1 ++ OInit id reuse :: h2)) = Some (Some src).
Proof.
  intros S N E. rewrite run_app, run_cons, keep_fn by exact N. apply init_ok; [now apply not_started|]. rewrite run_heap. exact E.
Qed.
(** a function initialised with its own copy shows the vector as it was at that time: later changes or the
    destruction of the vector do not matter *)
Theorem C171_snapshot h1 id h2 ty v p : started h1 = false -> no_init h2 -> p_type <> Parallel ->
  vectors h0 h1 id = Some (ty, v) -> in_force (h1 ++ OInit id false :: h2) = None -> inside p = true ->
  exists w, value (after (h1 ++ OInit id false :: h2)) p = Ok w /\ forall i, (i < n_vars)%nat -> w i = field n_dofs shape v p i.
Proof.
  intros S N P V Q I. unfold Mff_Model.value. rewrite (force_none _ _ _ _ Q). rewrite (fn_after h1 id false h2 (Copy v) S N).
  - cbn [with_fn]. apply eval_at; [reflexivity|exact I].
  - unfold init_sol_func. rewrite V. destruct p_type; [reflexivity|reflexivity|contradiction].
Qed.
(** a function that shares the vector shows its present contents *)
Theorem C171_shared h1 id h2 v ty w0 p : started h1 = false -> no_init h2 -> vectors h0 h1 id = Some (p_type, v) ->
  vectors h0 (h1 ++ OInit id true :: h2) id = Some (ty, w0) ->
  in_force (h1 ++ OInit id true :: h2) = None -> inside p = true ->
  exists w, value (after (h1 ++ OInit id true :: h2)) p = Ok w /\ forall i, (i < n_vars)%nat -> w i = field n_dofs shape w0 p i.
Proof.
  intros S N V W Q I. unfold Mff_Model.value. rewrite (force_none _ _ _ _ Q). rewrite (fn_after h1 id true h2 (Alias id) S N).
  - cbn [with_fn]. apply eval_at; [|exact I]. unfold contents. rewrite run_heap. cbn [m_heap fresh]. now rewrite W.
  - unfold init_sol_func. rewrite V. destruct p_type; cbn; rewrite andb_false_r; reflexivity.
Qed.
(** which is a use after free when the vector is gone *)
Theorem C171_shared_refuted h1 id h2 v p : started h1 = false -> no_init h2 -> vectors h0 h1 id = Some (p_type, v) ->
  vectors h0 (h1 ++ OInit id true :: h2) id = None ->
  in_force (h1 ++ OInit id true :: h2) = None -> value (after (h1 ++ OInit id true :: h2)) p = Fault UseAfterFree.
Proof.
  intros S N V W Q. unfold Mff_Model.value. rewrite (force_none _ _ _ _ Q). rewrite (fn_after h1 id true h2 (Alias id) S N).
  - cbn [with_fn]. unfold eval, contents. rewrite run_heap. cbn [m_heap fresh]. now rewrite W.
  - unfold init_sol_func. rewrite V. destruct p_type; cbn; rewrite andb_false_r; reflexivity.
Qed.
(** the vectors belong to the caller: no call of the function changes or destroys them *)
Theorem C171_owner h : m_heap (after h) = vectors h0 h.
Proof. apply run_heap. Qed.
(** nothing is evaluated before an initialisation, or after a clear *)
Theorem C171_not_started h p : started h = false -> in_force h = None -> forall v, value (after h) p <> Ok v.
Proof.
  intros S Q v. unfold Mff_Model.value. rewrite (force_none _ _ _ _ Q), (not_started _ _ _ _ S). cbn. destruct dbg; discriminate.
Qed.
(** outside the mesh no number is returned *)
Theorem C171_outside s p : m_use s = false -> inside p = false -> n_vars <> 0%nat -> forall v, value s p <> Ok v.
Proof.
  intros U I N v. unfold Mff_Model.value. rewrite U. destruct (m_fn s) as [[src|]|]; cbn; [|discriminate|destruct dbg; discriminate].
  unfold eval. destruct (contents s src); [|discriminate]. cbn. rewrite I. apply Nat.eqb_neq in N. rewrite N. discriminate.
Qed.
End Real.
(** a second initialisation is refused and changes nothing *)
Theorem C171_second_init p_type h0 h id reuse : started h = true ->
  mstep p_type true (mrun p_type true (fresh h0) h) (OInit id reuse) = (mrun p_type true (fresh h0) h, Some AssertFailed).
Proof.
  intros S. pose proof (run_started p_type true h (fresh h0)) as E. unfold started in S. cbn [has_fn fresh m_fn] in E. rewrite S in E.
  cbn. unfold init. unfold has_fn in E. rewrite E. reflexivity.
Qed.
(** ... also when the first one failed: the object is then half initialised, and a retry is refused *)
Theorem C171_failed_init_refuted : exists h0 id id' v, h0 id' = Some (Serial, v) /\
  (exists s, mstep Serial true (fresh h0) (OInit id true) = (s, Some AssertFailed) /\
     snd (mstep Serial true s (OInit id' true)) = Some AssertFailed /\
     forall n_vars n_dofs point inside shape p, value n_vars n_dofs point inside shape true s p = Fault NullDeref).
Proof.
  exists (fun k => match k with O => Some (Parallel, fun _ => 0) | 1%nat => Some (Serial, fun _ => 1) | _ => None end), 0%nat, 1%nat, (fun _ => 1).
  split; [reflexivity|]. eexists. split; [reflexivity|]. split; reflexivity.
Qed.
(** a clear is enough to start again *)
Theorem C171_clear_partial p_type dbg h0 h id ty v : p_type <> Parallel -> vectors h0 h id = Some (ty, v) ->
  snd (mstep p_type dbg (mrun p_type dbg (fresh h0) (h ++ [OClear])) (OInit id false)) = None.
Proof.
  intros P V. rewrite run_app. cbn. unfold init. cbn [clear m_fn m_heap]. rewrite andb_false_r. rewrite run_heap. cbn [fresh m_heap]. unfold init_sol_func. rewrite V.
  destruct p_type; [reflexivity|reflexivity|contradiction].
Qed.

(** ** C172 *)
Section Derivatives.
Variables (n_vars n_dofs : nat) (point : Type) (inside : point -> bool) (shape : point -> nat -> nat -> R) (dshape : point -> nat -> nat -> nat -> R).
Variables (p_type : ptype) (dbg : bool) (h0 : heap).
Notation after := (mrun p_type dbg (fresh h0)).
Notation value := (value n_vars n_dofs point inside shape dbg).
Notation gradient := (gradient n_vars n_dofs point inside dshape dbg).
Notation derivative := (derivative n_vars n_dofs point inside shape dbg).
Notation derivative_gradient := (derivative_gradient n_vars n_dofs point inside dshape dbg).
Notation perturbation := (perturbation n_vars n_dofs point inside shape dbg).
Notation perturbation_gradient := (perturbation_gradient n_vars n_dofs point inside dshape dbg).
Lemma sens_after f h1 id h2 ty v : attempted f h1 = false -> no_sens f h2 -> p_type <> Parallel -> vectors h0 h1 id = Some (ty, v) ->
  lookup f (m_sens (after (h1 ++ OInitSens f id false :: h2))) = Some (Copy v).
Proof.
  intros S N P V. rewrite run_app, run_cons, keep_sens by exact N. apply sens_ok; [now apply not_attempted|]. rewrite run_heap. cbn [fresh m_heap].
  unfold init_sol_func. rewrite V. destruct p_type; [reflexivity|reflexivity|contradiction].
Qed.
(** each parameter has its own sensitivity: that of the vector given for it, whatever is done for others *)
Theorem C172_sensitivity f h1 id h2 ty v p : attempted f h1 = false -> no_sens f h2 -> p_type <> Parallel -> vectors h0 h1 id = Some (ty, v) ->
  in_force (h1 ++ OInitSens f id false :: h2) = None -> inside p = true ->
  (exists w, derivative (after (h1 ++ OInitSens f id false :: h2)) f p = Ok w /\ forall i, (i < n_vars)%nat -> w i = field n_dofs shape v p i) /\
  (exists w, derivative_gradient (after (h1 ++ OInitSens f id false :: h2)) f p = Ok (n_vars, 3%nat, w) /\
     forall i j, (i < n_vars)%nat -> (j < 3)%nat -> w i j = field_grad n_dofs dshape v p i j).
Proof.
  intros S N P V Q I. unfold Mff_Model.derivative, Mff_Model.derivative_gradient. rewrite (force_none _ _ _ _ Q), (sens_after f h1 id h2 ty v S N P V).
  split; [apply eval_at|apply eval_grad_at]; try reflexivity; exact I.
Qed.
Theorem C172_unknown f h p : attempted f h = false -> in_force h = None -> forall v, derivative (after h) f p <> Ok v.
Proof.
  intros S Q v. unfold Mff_Model.derivative. rewrite (force_none _ _ _ _ Q), (not_attempted _ _ f _ _ S). discriminate.
Qed.
(** a failed initialisation of a sensitivity leaves no trace *)
Theorem C172_retry s f id reuse e s' : mstep p_type dbg s (OInitSens f id reuse) = (s', Some e) -> s' = s.
Proof.
  cbn. unfold init_sens. destruct (dbg && _); [now intros [= <- _]|]. destruct (init_sol_func _ _ _ _ _); [discriminate|now intros [= <- _]].
Qed.
(** the gradient is that of the interpolation *)
Theorem C172_gradient h1 id h2 ty v p : started h1 = false -> no_init h2 -> p_type <> Parallel ->
  vectors h0 h1 id = Some (ty, v) -> in_force (h1 ++ OInit id false :: h2) = None -> inside p = true ->
  exists w, gradient (after (h1 ++ OInit id false :: h2)) p = Ok (n_vars, 3%nat, w) /\ forall i j, (i < n_vars)%nat -> (j < 3)%nat -> w i j = field_grad n_dofs dshape v p i j.
Proof.
  intros S N P V Q I. unfold Mff_Model.gradient. rewrite (force_none _ _ _ _ Q). rewrite (fn_after p_type dbg h0 h1 id false h2 (Copy v) S N).
  - cbn [with_fn]. apply eval_grad_at; [reflexivity|exact I].
  - unfold init_sol_func. rewrite V. destruct p_type; [reflexivity|reflexivity|contradiction].
Qed.
(** with a quadrature point solution in force the value is that solution, at every point *)
Theorem C172_quadrature h v p : in_force h = Some v -> value (after h) p = Ok v.
Proof. intros Q. destruct (force_some p_type dbg h0 h v Q) as [A B]. unfold Mff_Model.value. now rewrite A, B. Qed.
(** but so are its gradient, its sensitivities and its perturbation *)
Theorem C172_quadrature_refuted h v f p : in_force h = Some v ->
  derivative (after h) f p = Ok v /\ perturbation (after h) p = Ok v /\ gradient (after h) p = Ok (n_vars, 1%nat, fun i _ => v i) /\
  derivative_gradient (after h) f p = Ok (n_vars, 1%nat, fun i _ => v i).
Proof.
  intros Q. destruct (force_some p_type dbg h0 h v Q) as [A B].
  unfold Mff_Model.derivative, Mff_Model.perturbation, Mff_Model.gradient, Mff_Model.derivative_gradient. rewrite A, B. auto.
Qed.
(** no history makes a perturbation available *)
Theorem C172_perturbation_refuted h p : in_force h = None ->
  (forall v, perturbation (after h) p <> Ok v) /\ (forall v, perturbation_gradient (after h) p <> Ok v) /\
  (started h = true -> perturbation_gradient (after h) p = Fault NullDeref).
Proof.
  intros Q. unfold Mff_Model.perturbation, Mff_Model.perturbation_gradient. rewrite (force_none _ _ _ _ Q).
  assert (E : m_pert (after h) = None) by (apply run_pert; reflexivity). rewrite E. split; [|split].
  - intros v. cbn. destruct dbg; discriminate.
  - intros v. destruct (dbg && _); discriminate.
  - intros S. pose proof (run_started p_type dbg h (fresh h0)) as X. unfold started in S. cbn [has_fn fresh m_fn] in X. rewrite S in X. unfold has_fn in X.
    destruct (m_fn (after h)); [|discriminate]. rewrite andb_false_r. reflexivity.
Qed.
End Derivatives.
(** the sensitivity is the derivative of the value when the vectors are those of a solution and its sensitivity *)
Theorem C172_is_derivative n_vars n_dofs point inside shape p_type dbg (h0 : R -> heap) (U : R -> vec) (dU : vec) (t0 : R) f id did h1 h2 h3 p F D :
  p_type <> Parallel -> inside p = true ->
  (forall a, (a < n_dofs)%nat -> is_derive (fun t : R => U t a) t0 (dU a)) ->
  started (h1 ++ OInitSens f did false :: h2) = false -> no_init h3 -> attempted f h1 = false -> no_sens f (h2 ++ OInit id false :: h3) ->
  (forall t, exists ty, vectors (h0 t) (h1 ++ OInitSens f did false :: h2) id = Some (ty, U t)) ->
  (exists ty, vectors (h0 t0) h1 did = Some (ty, dU)) ->
  in_force (h1 ++ OInitSens f did false :: h2 ++ OInit id false :: h3) = None ->
  let after t := mrun p_type dbg (fresh (h0 t)) (h1 ++ OInitSens f did false :: h2 ++ OInit id false :: h3) in
  (forall t, value n_vars n_dofs point inside shape dbg (after t) p = Ok (F t)) ->
  derivative n_vars n_dofs point inside shape dbg (after t0) f p = Ok D ->
  forall i, (i < n_vars)%nat -> is_derive (fun t : R => F t i) t0 (D i).
Proof.
  intros P I HU S N A NS V [ty1 V1] Q after HF HD i Hi. unfold after in *.
  assert (EF : forall t, F t i = field n_dofs shape (U t) p i).
  { intros t. destruct (V t) as [ty Vt]. pose proof (HF t) as X.
    destruct (C171_snapshot n_vars n_dofs point inside shape p_type dbg (h0 t) (h1 ++ OInitSens f did false :: h2) id h3 ty (U t) p S N P Vt) as (w & Ew & Hw); [now rewrite <- app_assoc|exact I|].
    rewrite <- app_assoc in Ew. cbn [app] in Ew. rewrite X in Ew. injection Ew as <-. now apply Hw. }
  destruct (C172_sensitivity n_vars n_dofs point inside shape (fun _ _ _ _ => 0) p_type dbg (h0 t0) f h1 did (h2 ++ OInit id false :: h3) ty1 dU p A NS P V1 Q I) as [(w & Ew & Hw) _].
  rewrite HD in Ew. injection Ew as <-. rewrite (Hw i Hi).
  apply (der_fun (fun t => field n_dofs shape (U t) p i)); [intros t; symmetry; apply EF|]. unfold field. apply (der_sum n_dofs (fun a t => shape p i a * U t a)). intros a Ha. apply der_scal. now apply HU.
Qed.

(** ** C173: complex functions *)
Section Complex.
Variables (n_vars n_dofs : nat) (point : Type) (inside : point -> bool) (shape : point -> nat -> nat -> R) (dbg : bool) (h0 : heap).
Notation after := (crun dbg (mkCS h0 None None)).
Lemma c_at v w p : inside p = true -> exists r, c_eval n_vars n_dofs point inside shape dbg (Some (v, w)) p = Ok r /\
  forall i, (i < n_vars)%nat -> r i = (field n_dofs shape v p i, field n_dofs shape w p i).
Proof. intros I. unfold c_eval. rewrite I. eexists. split; [reflexivity|]. intros i Hi. cbn beta. rewrite (proj2 (Nat.ltb_lt i n_vars) Hi). reflexivity. Qed.
Theorem C173_value h1 re im h2 t1 t2 v w p : c_started h1 = false -> c_quiet h2 ->
  cvectors h0 h1 re = Some (t1, v) -> cvectors h0 h1 im = Some (t2, w) -> inside p = true ->
  exists r, c_value n_vars n_dofs point inside shape dbg (after (h1 ++ CInit re im :: h2)) p = Ok r /\
  forall i, (i < n_vars)%nat -> r i = (field n_dofs shape v p i, field n_dofs shape w p i).
Proof.
  intros S N V W I. unfold c_value. rewrite crun_app, crun_cons, ckeep by exact N. cbn. unfold c_init. rewrite (c_not_started dbg h0 h1 S), andb_false_r.
  unfold read2. rewrite crun_heap. cbn [c_heap]. rewrite V, W. cbn [fst c_fn]. now apply c_at.
Qed.
Theorem C173_perturbation h1 re im h2 t1 t2 v w p : p_started h1 = false -> p_quiet h2 ->
  cvectors h0 h1 re = Some (t1, v) -> cvectors h0 h1 im = Some (t2, w) -> inside p = true ->
  exists r, c_perturbation n_vars n_dofs point inside shape dbg (after (h1 ++ CPert re im :: h2)) p = Ok r /\
  forall i, (i < n_vars)%nat -> r i = (field n_dofs shape v p i, field n_dofs shape w p i).
Proof.
  intros S N V W I. unfold c_perturbation. rewrite crun_app, crun_cons, pkeep by exact N. cbn. unfold c_init_perturbation. rewrite (p_not_started dbg h0 h1 S), andb_false_r.
  unfold read2. rewrite crun_heap. cbn [c_heap]. rewrite V, W. cbn [fst c_pert]. now apply c_at.
Qed.
Theorem C173_cleared h h2 p : c_quiet h2 -> p_quiet h2 -> (forall r, c_value n_vars n_dofs point inside shape dbg (after (h ++ CClear :: h2)) p <> Ok r) /\
  (forall r, c_perturbation n_vars n_dofs point inside shape dbg (after (h ++ CClear :: h2)) p <> Ok r).
Proof.
  intros N N'. unfold c_value, c_perturbation. rewrite crun_app, crun_cons, ckeep, pkeep by assumption. cbn. split; intros r; destruct dbg; discriminate.
Qed.
Theorem C173_owner h : c_heap (after h) = cvectors h0 h.
Proof. apply crun_heap. Qed.
End Complex.
(** outside the mesh a checked build refuses; without checks the value is empty *)
Theorem C173_outside n_vars n_dofs point inside shape s p : inside p = false -> forall r, c_value n_vars n_dofs point inside shape true s p <> Ok r.
Proof. intros I r. unfold c_value, c_eval. destruct (c_fn s) as [[a b]|]; [rewrite I|]; discriminate. Qed.

(** the vector changes and is destroyed after the copy was taken *)
Example C171_example : let h0 := fun k => if (k =? 0)%nat then Some (Parallel, fun _ => 5) else None in
  exists w, value 1 1 unit (fun _ => true) (fun _ _ _ => 1) true
    (mrun Serial true (fresh h0) ([OWrite 0 (fun _ => 7)] ++ OInit 0 false :: [OWrite 0 (fun _ => 9); ORelease 0; OSetQp (fun _ => 1); OClearQp])) tt = Ok w /\ w 0%nat = 7.
Proof.
  intros h0. edestruct (C171_snapshot 1 1 unit (fun _ => true) (fun _ _ _ => 1) Serial true h0 [OWrite 0 (fun _ => 7)] 0 [OWrite 0 (fun _ => 9); ORelease 0; OSetQp (fun _ => 1); OClearQp] Parallel (fun _ => 7) tt) as (w & E & H); try reflexivity; try discriminate.
  - intros o [<-|[<-|[<-|[<-|[]]]]]; exact I.
  - exists w. split; [exact E|]. rewrite H by lia. unfold field. cbn. ring.
Qed.
Example C172_example : let h0 := fun k => if (k =? 0)%nat then Some (Serial, fun _ => 5) else Some (Serial, fun _ => 2) in
  exists w, derivative 1 1 unit (fun _ => true) (fun _ _ _ => 3) true
    (mrun Serial true (fresh h0) ([OInit 0 true] ++ OInitSens 4 1 false :: [OInitSens 5 0 false])) 4 tt = Ok w /\ w 0%nat = 6.
Proof.
  intros h0. destruct (C172_sensitivity 1 1 unit (fun _ => true) (fun _ _ _ => 3) (fun _ _ _ _ => 0) Serial true h0 4 [OInit 0 true] 1 [OInitSens 5 0 false] Serial (fun _ => 2) tt) as [(w & E & H) _]; try reflexivity; try discriminate.
  - intros o [<-|[]]. discriminate.
  - exists w. split; [exact E|]. rewrite H by lia. unfold field. cbn. ring.
Qed.
Example C173_example : let h0 := fun k => Some (Serial, fun _ => INR k) in
  exists r, c_value 1 1 unit (fun _ => true) (fun _ _ _ => 1) true (crun true (mkCS h0 None None) ([CPert 3 4] ++ CInit 1 2 :: [CWrite 1 (fun _ => 0); CRelease 2])) tt = Ok r /\ r 0%nat = (1, 2).
Proof.
  intros h0. destruct (C173_value 1 1 unit (fun _ => true) (fun _ _ _ => 1) true h0 [CPert 3 4] 1 2 [CWrite 1 (fun _ => 0); CRelease 2] Serial Serial (fun _ => INR 1) (fun _ => INR 2) tt) as (r & E & H); try reflexivity.
  - intros o [<-|[<-|[]]]; exact I.
  - exists r. split; [exact E|]. rewrite H by lia. unfold field. cbn. f_equal; ring.
Qed.

Print Assumptions C171_snapshot.
Print Assumptions C172_is_derivative.
Print Assumptions C172_perturbation_refuted.
Print Assumptions C173_value.
