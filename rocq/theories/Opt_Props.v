(** C33-C38: optimiser interfaces and the gradient check. *)
From Coq Require Import List Arith Lia Bool Reals Lra ZArith.
From Verif Require Import Base BaseLemmas RBool Opt_Model Opt_Spec Opt_Proofs Opt_Proofs2.
Import ListNotations.
Open Scope nat_scope.

(** C33, NLopt: entry [i*n+j] of the gradient handed to NLopt is the derivative the user stored
    for constraint [i] and variable [j]; no access is out of bounds. *)
Theorem C33_nlopt_gradient : forall E n m result x g, keeps_sizes E -> len g = m * n ->
  exists g' stored, nlopt_constraints E n m m result n x (Some g) = Ok (result, Some g') /\
    stored = E x false (mkArr m (fun _ => true))
               (mkBuf 0 (fill n 0%R) (fill m 0%R) (fill (n * m) 0%R)) /\
    len g' = m * n /\
    forall i j, i < m -> j < n -> cell g' (i * n + j) = user_grad m stored i j.
Proof.
  intros E n m result x g HE Hg.
  destruct (nlopt_constraints_ok E n m result x g HE Hg) as [g' [A [B C]]].
  exists g'. eexists. repeat split; eauto.
Qed.

Theorem C33_nlopt_objective_gradient : forall E n m x g, keeps_sizes E -> len g = n ->
  exists g' stored, nlopt_objective E n m n x (Some g) = Ok (e_obj stored, Some g') /\
    stored = E x true (mkArr m (fun _ => false))
               (mkBuf 0 (fill n 0%R) (fill m 0%R) (fill (n * m) 0%R)) /\
    forall j, j < n -> cell g' j = cell (e_dobj stored) j.
Proof.
  intros E n m x g HE Hg.
  destruct (nlopt_objective_ok E n m x g HE Hg) as [v [g' [A [B C]]]].
  exists g'. eexists. split; [|split; [reflexivity|exact C]]. rewrite A, B. reflexivity.
Qed.

(** The constraint VALUES are never handed back: whatever the callback computes, the result array
    is unchanged. *)
Theorem C33_nlopt_values_refuted : exists E n m result x,
  keeps_sizes E /\ len result = m /\
  (forall x og eg b, cell (e_f (E x og eg b)) 0 = 7%R) /\ m > 0 /\
  exists r, nlopt_constraints E n m m result n x None = Ok (r, None) /\ cell r 0 <> 7%R.
Proof.
  exists (fun x og eg b => mkBuf 0 (e_dobj b) (mkArr (len (e_f b)) (fun _ => 7%R)) (e_df b)),
    1, 1, (fill 1 0%R), (fill 1 0%R).
  split; [repeat split|]. split; [reflexivity|]. split; [reflexivity|]. split; [lia|].
  eexists. split; [reflexivity|]. simpl. lra.
Qed.

(** With two or more inequality constraints the tolerance argument is read out of bounds. *)
Theorem C33_nlopt_tolerance_refuted : forall m, m >= 2 -> nlopt_tolerances m = Fault OutOfBounds.
Proof.
  intros m H. unfold nlopt_tolerances, afill.
  set (body := fun (i : nat) (t : arr R) =>
    v <- get (mkArr 1 (fun _ : nat => 1e-3)%R) i ;; set t i v).
  assert (G : forall k, loop (S (S k)) body (fill m 0%R) = Fault OutOfBounds).
  { induction k.
    - cbn [loop bind]. change (body 0 (fill m 0%R)) with (set (fill m 0%R) 0 (1e-3)%R).
      rewrite set_ok by (cbn; lia). reflexivity.
    - cbn [loop] in *. rewrite IHk. reflexivity. }
  destruct m as [|[|k]]; try lia. apply G.
Qed.

(** C33, DOT: for every set of active constraints. *)
Theorem C33_dot_gradient : forall ndv ncon df0dx dfdx iprm iwk wk nact, ndv > 0 -> ncon > 0 ->
  len df0dx = ndv -> len dfdx = ndv * ncon -> len iprm = 20 -> cell iprm 19 = nact ->
  nact <= ncon -> len iwk = dot_nriwk ndv ncon -> len wk = dot_nrwk ndv ncon ->
  (forall i, i < nact -> 1 <= cell iwk i <= ncon) ->
  exists wk', dot_copy ndv ncon df0dx dfdx iprm iwk wk = Ok wk' /\
    (forall j, j < ndv -> cell wk' j = cell df0dx j) /\
    (forall i j, i < nact -> j < ndv ->
       cell wk' ((i + 1) * ndv + j) =
       user_grad ncon (mkBuf 0 df0dx (fill ncon 0%R) dfdx) (cell iwk i - 1) j) /\
    (forall k, (nact + 1) * ndv <= k -> cell wk' k = cell wk k).
Proof. intros. apply dot_copy_ok; auto. Qed.

(** C34 under a guard: if the origin is within the bounds, or the first outer iteration does not
    backtrack, every point handed to the user's functions is within the bounds. *)
Theorem C34_evaluations_in_bounds_partial : forall N lo hi M f0 fc mma conser innmax max_iters
  nrel geps bfuel fuel x0 g,
  in_box N lo hi x0 -> (forall g k tr, in_box N lo hi (mma g k tr)) ->
  (in_box N lo hi (fun _ => 0%R) \/
   (forall g k tr, g_iter g = 1 -> (fc (mma g k tr) 0%nat <= 100)%R)) ->
  gcmma_loop M f0 fc mma conser innmax max_iters nrel geps fuel bfuel (gcmma_init nrel x0) = Ok g ->
  (forall x, In x (g_trace g) -> in_box N lo hi x) /\ in_box N lo hi (g_x g).
Proof.
  intros N lo hi M f0 fc mma conser innmax max_iters nrel geps bfuel fuel x0 g Hx Hm Hg H.
  assert (R : gcmma_reach M f0 fc mma conser innmax max_iters nrel geps bfuel x0 g)
    by (eapply loop_reach; [apply greach_init|exact H]).
  destruct (reach_box M f0 fc mma conser innmax max_iters nrel geps bfuel N lo hi Hm x0 g Hx Hg R)
    as [A [_ [B _]]]. split; auto. now apply Forall_forall.
Qed.

(** C34 is false in general: in the first iteration the backtracking step goes towards the origin
    even when the origin violates the bounds. *)
Theorem C34_evaluations_in_bounds_refuted : exists N lo hi M f0 fc mma conser x0 g,
  in_box N lo hi x0 /\ (forall g k tr, in_box N lo hi (mma g k tr)) /\
  gcmma_loop M f0 fc mma conser 15 1 5 1e-6 1 5 (gcmma_init 5 x0) = Ok g /\
  exists x, In x (g_trace g) /\ ~ in_box N lo hi x.
Proof.
  set (fc := fun (x : vec) (_ : nat) => if rltb 1.5 (x 0%nat) then 1000%R else 0%R).
  set (f0 := fun x : vec => x 0%nat).
  set (mma := fun (_ : gstate) (_ : nat) (_ : list vec) => (fun _ => 2%R) : vec).
  set (x0 := (fun _ => 1%R) : vec).
  set (y := (fun _ => 0 + 0.02 * (2 - 0))%R : vec).
  exists 1, (fun _ => 1%R), (fun _ => 2%R), 1, f0, fc, mma, (fun _ _ _ => true), x0.
  assert (B : forall old tr, backtrack 1 fc 5 0.02 old (fun _ => 2%R) (fun _ => 2%R) tr =
      (let nw := (fun i => (old i + 0.02 * (2 - old i))%R) : vec in
       backtrack 1 fc 4 (0.02 * 0.02) old (fun _ => 2%R) nw (tr ++ [nw]))).
  { intros. cbn [backtrack Nat.eqb]. unfold fc at 1.
    replace (rltb 1.5 2) with true by (symmetry; apply rltb_true; lra).
    replace (rltb 100 1000) with true by (symmetry; apply rltb_true; lra). reflexivity. }
  assert (B2 : forall fr x tr, backtrack 1 fc 4 fr (fun _ => 0%R) x y tr = Ok (y, tr)).
  { intros. cbn [backtrack Nat.eqb]. unfold fc at 1. unfold y.
    replace (rltb 1.5 (0 + 0.02 * (2 - 0))) with false by (symmetry; apply rltb_false; lra).
    replace (rltb 100 0) with false by (symmetry; apply rltb_false; lra). reflexivity. }
  eexists. split; [|split; [|split]].
  - intros i _. unfold x0. lra.
  - intros g k tr i _. unfold mma. lra.
  - cbn [gcmma_loop]. unfold outer. cbv zeta. cbn [inner gcmma_init g_x g_old1 g_trace g_iter].
    unfold mma at 1 2 3. rewrite B. cbv zeta.
    change (fun _ : nat => (0 + 0.02 * (2 - 0))%R) with y. rewrite B2. cbn [bind fst snd].
    destruct (rel_change_spec 5 1e-6 (mkArr 5 (upd (fun _ => 0%R) 0 (f0 y)))) as [b [Eb _]];
      [reflexivity|lia|].
    cbn [Nat.eqb g_f0s gcmma_init Nat.sub]. unfold afill. rewrite set_ok by (cbn; lia).
    cbn [bind len cell fill]. change (0 mod 5) with 0. rewrite Eb. cbn [bind fst snd Nat.eqb orb]. reflexivity.
  - cbn [g_trace]. exists y. split.
    + cbn [app In]. right. right. now left.
    + intro K. specialize (K 0 ltac:(lia)). unfold y in K. lra.
Qed.

(** C35: once [nrel] objectives have been recorded, the relative-change test fires exactly when
    one of the last [nrel] values agrees with every one of them (and that value is the one stored
    last in the buffer). *)
Theorem C35_relative_change_partial : forall M f0 fc mma conser innmax max_iters nrel geps bfuel
  x0 g g' t, nrel > 0 -> (0 < geps)%R ->
  gcmma_reach M f0 fc mma conser innmax max_iters nrel geps bfuel x0 g ->
  outer M f0 fc mma conser innmax max_iters nrel geps bfuel g = Ok (g', t) ->
  nrel <= g_iter g' -> t = true -> g_iter g' <> max_iters ->
  exists c, In c (lastn nrel (g_objs g')) /\
    forall v, In v (lastn nrel (g_objs g')) -> agrees geps c v.
Proof.
  intros M f0 fc mma conser innmax max_iters nrel geps bfuel x0 g g' t Hn Hg Hr E Hi Ht Hm.
  assert (Hr' : gcmma_reach M f0 fc mma conser innmax max_iters nrel geps bfuel x0 g')
    by (eapply greach_step; eauto).
  destruct (outer_shape M f0 fc mma conser innmax max_iters nrel geps bfuel g g' t E)
    as [r [buf [conv [_ [_ [_ [Ec [Eg Et]]]]]]]].
  destruct (reach_buffer M f0 fc mma conser innmax max_iters nrel geps bfuel x0 g' Hr')
    as [L [Lb [C _]]].
  assert (Hb : g_f0s g' = buf) by (rewrite Eg; reflexivity).
  assert (Hit : g_iter g' = S (g_iter g)) by (rewrite Eg; reflexivity).
  assert (conv = true).
  { rewrite Et in Ht. apply orb_true_iff in Ht as [K|K]; auto.
    apply Nat.eqb_eq in K. congruence. }
  subst conv.
  destruct (rel_change_spec nrel geps buf) as [b [Eb Hb2]]; [congruence|auto|].
  rewrite Ec in Eb. injection Eb as <-. destruct Hb2 as [Hb2 _]. specialize (Hb2 eq_refl).
  destruct (mod_surj nrel (nrel - 1) (g_iter g') ltac:(lia) Hi) as [kc [K1 [K2 K3]]].
  pose proof (C kc K1 K2) as Cc. rewrite K3, Hb in Cc.
  exists (cell buf (nrel - 1)). split.
  - rewrite Cc. apply nth_lastn; lia.
  - intros v Hv. apply lastn_nth in Hv as [k [A [B D]]]; [|lia].
    rewrite <- D, <- (C k) by lia. rewrite Hb.
    assert (Hk : k mod nrel < nrel) by (apply Nat.mod_upper_bound; lia).
    destruct (Nat.eq_dec (k mod nrel) (nrel - 1)) as [->|Ne].
    + now apply agrees_refl.
    + apply Hb2. lia.
Qed.

(** C35 is false before that: the buffer starts with zeros, so a run may stop after a single
    iteration, having recorded one objective although five are to be compared. *)
Theorem C35_early_stop_refuted : exists M f0 fc mma conser x0 g,
  gcmma_loop M f0 fc mma conser 15 100 5 1e-6 100 5 (gcmma_init 5 x0) = Ok g /\
  g_iter g = 1 /\ List.length (g_objs g) = 1 /\ g_f0 g = 0%R /\ f0 x0 = 1000%R.
Proof.
  set (mma := fun (_ : gstate) (_ : nat) (_ : list vec) => (fun _ => 0%R) : vec).
  set (f0 := fun x : vec => x 0%nat).
  assert (B : forall old x y tr, backtrack 1 (fun _ _ => 0%R) 5 0.02 old x y tr = Ok (y, tr)).
  { intros. cbn [backtrack Nat.eqb].
    replace (rltb 100 0) with false by (symmetry; apply rltb_false; lra). reflexivity. }
  exists 1, f0, (fun _ _ => 0%R), mma, (fun _ _ _ => true), (fun _ => 1000%R).
  eexists. split; [|split; [|split; [|split]]].
  - change 100 with (S 99). cbn [gcmma_loop]. unfold outer. cbv zeta.
    cbn [inner gcmma_init g_x g_old1 g_trace g_iter]. rewrite B. cbn [bind fst snd].
    cbn [Nat.eqb g_f0s gcmma_init Nat.sub]. unfold afill. rewrite set_ok by (cbn; lia).
    cbn [bind len cell fill]. change (0 mod 5) with 0.
    destruct (rel_change_spec 5 1e-6 (mkArr 5 (upd (fun _ => 0%R) 0 (f0 (mma
      (mkG 1 (fun _ => 1000%R) (fun _ => 0%R) (fun _ => 0%R) (f0 (fun _ => 1000%R))
        (fill 5 0%R) ([] ++ [fun _ => 1000%R]) []) (15 - 15) ([] ++ [fun _ => 1000%R]))))))
      as [b [Eb Hb]]; [reflexivity|lia|].
    assert (b = true).
    { apply Hb. intros i Hi. cbn [cell]. unfold upd, mma, f0.
      assert (K : forall q, (if q =? 0 then 0%R else 0%R) = 0%R) by (intro; now destruct (_ =? _)).
      rewrite !K. apply agrees_refl. lra. }
    subst b. change (15 - 15) with 0 in Eb. change (15 - 15) with 0.
    match type of Eb with rel_change _ _ ?a = _ =>
      match goal with |- context [rel_change 5 1e-6 ?b] => change b with a end end.
    rewrite Eb. cbn [bind fst snd]. rewrite orb_true_r. reflexivity.
  - reflexivity.
  - reflexivity.
  - reflexivity.
  - reflexivity.
Qed.

(** C35: the iteration limit stops the loop, provided it is at least one, the comparison length is
    positive and every backtracking search ends. *)
Theorem C35_iteration_limit_partial : forall M f0 fc mma conser innmax max_iters nrel geps bfuel x0,
  nrel > 0 -> max_iters > 0 ->
  (forall old1 xmma tr, exists r, backtrack M fc bfuel 0.02 old1 xmma xmma tr = Ok r) ->
  exists g, forall fuel, max_iters <= fuel ->
    gcmma_loop M f0 fc mma conser innmax max_iters nrel geps fuel bfuel (gcmma_init nrel x0) = Ok g /\
    g_iter g <= max_iters.
Proof.
  intros M f0 fc mma conser innmax max_iters nrel geps bfuel x0 Hn Hm Hb.
  destruct max_iters as [|k]; [lia|].
  destruct (loop_total M f0 fc mma conser innmax (S k) nrel geps bfuel x0 k (gcmma_init nrel x0))
    as [g H]; auto.
  - apply greach_init.
  - exists g. intros fuel Hf. replace fuel with (S k + (fuel - S k)) by lia. apply H.
Qed.

(** Otherwise the limit is never reached: if the first constraint stays above 100 the backtracking
    loop does not end, whatever the limit. *)
Theorem C35_backtracking_endless_refuted : forall f0 mma conser innmax max_iters nrel geps bfuel
  fuel x0, fuel > 0 ->
  gcmma_loop 1 f0 (fun _ _ => 101%R) mma conser innmax max_iters nrel geps fuel bfuel
    (gcmma_init nrel x0) = Fault OutOfFuel.
Proof.
  intros f0 mma conser innmax max_iters nrel geps bfuel fuel x0 Hf.
  assert (B : forall k fr old x y tr,
    backtrack 1 (fun _ _ => 101%R) k fr old x y tr = Fault OutOfFuel).
  { induction k; intros; cbn [backtrack Nat.eqb];
      (replace (rltb 100 101) with true by (symmetry; apply rltb_true; lra)); auto. }
  destruct fuel; [lia|]. cbn [gcmma_loop]. unfold outer. cbv zeta.
  destruct innmax; cbn [inner]; rewrite B; reflexivity.
Qed.

(** Without constraints the first inner iteration reads an element of an empty vector. *)
Theorem C34_no_constraints_refuted : forall f0 fc mma conser innmax max_iters nrel geps bfuel fuel x0,
  fuel > 0 ->
  gcmma_loop 0 f0 fc mma conser innmax max_iters nrel geps fuel bfuel (gcmma_init nrel x0)
  = Fault OutOfBounds.
Proof.
  intros. destruct fuel; [lia|]. cbn [gcmma_loop]. unfold outer. cbv zeta.
  destruct innmax; cbn [inner]; destruct bfuel; reflexivity.
Qed.

(** C36 is false: the printed category is INFORM with its last digit cleared for two of the known
    codes only. *)
Theorem C36_exit_category_refuted : forall inform e i, npsol_message inform = Ok (e, i) ->
  i = inform /\ (e = (10 * (inform / 10))%Z <-> inform = 11%Z \/ inform = 44%Z).
Proof.
  intros inform e i H. unfold npsol_message in H.
  destruct (zmem (Z.rem inform 10 * 10) exit_keys) eqn:E1; [|discriminate].
  cbn [assert_] in H. destruct (zmem inform info_keys) eqn:E2; [|discriminate].
  cbn [assert_] in H. injection H as <- <-. split; auto.
  unfold zmem in E2. apply existsb_exists in E2 as [k [Hk Ek]]. apply Z.eqb_eq in Ek. subst k.
  unfold info_keys in Hk. cbn [In] in Hk.
  repeat (destruct Hk as [<-|Hk]; [vm_compute; split; [intro K; try discriminate; auto|
     intros [K|K]; try discriminate; reflexivity]|]); contradiction.
Qed.

(** A successful run (INFORM 1) is announced as category 10 ("appears to be infeasible"); INFORM 2
    (feasible point found) stops with a failed assertion. *)
Theorem C36_success_refuted : npsol_message 1 = Ok (10, 1)%Z /\ npsol_message 2 = Fault AssertFailed.
Proof. split; reflexivity. Qed.

(** C37: variable bounds and inequality constraints are passed correctly. *)
Theorem C37_bounds_partial : forall n n_eq n_ineq xmin xmax, len xmin = n -> len xmax = n ->
  exists bl bu, npsol_bounds n (n_eq + n_ineq) xmin xmax = Ok (bl, bu) /\
    len bl = n + (n_eq + n_ineq) /\ len bu = n + (n_eq + n_ineq) /\
    (forall i, i < n -> cell bl i = cell xmin i /\ cell bu i = cell xmax i) /\
    (forall i, i < n_ineq -> cell bl (n + n_eq + i) = (- 1e20)%R /\ cell bu (n + n_eq + i) = 0%R).
Proof.
  intros n n_eq n_ineq xmin xmax L1 L2.
  destruct (npsol_bounds_ok n (n_eq + n_ineq) xmin xmax L1 L2) as [bl [bu [E [A [B [C D]]]]]].
  exists bl, bu. repeat split; auto; try (apply C; auto);
    rewrite <- Nat.add_assoc; apply D; lia.
Qed.

(** C37 is false for every equality constraint: its lower bound is -1e20. *)
Theorem C37_equality_bounds_refuted : forall n n_eq n_ineq xmin xmax i, len xmin = n ->
  len xmax = n -> i < n_eq ->
  exists bl bu, npsol_bounds n (n_eq + n_ineq) xmin xmax = Ok (bl, bu) /\
    cell bu (n + i) = 0%R /\ cell bl (n + i) <> 0%R.
Proof.
  intros n n_eq n_ineq xmin xmax i L1 L2 Hi.
  destruct (npsol_bounds_ok n (n_eq + n_ineq) xmin xmax L1 L2) as [bl [bu [E [A [B [C D]]]]]].
  exists bl, bu. destruct (D i ltac:(lia)) as [D1 D2]. repeat split; auto. rewrite D1. lra.
Qed.

(** C38: the check succeeds exactly when every derivative is within the relative tolerance of its
    central difference. *)
Theorem C38_verify_gradients : forall E n m f0 fc g0 gc x,
  computes E n m f0 fc g0 gc -> respects n f0 -> (forall j, j < m -> respects n (fc j)) ->
  len x = n ->
  exists b, verify_gradients E n m x = Ok b /\
    (b = true <->
     (forall i, i < n -> (Rabs (g0 (cell x) i - central f0 (cell x) i 1e-5) <=
                          1e-3 * Rabs (g0 (cell x) i))%R) /\
     (forall i j, i < n -> j < m ->
        (Rabs (gc j (cell x) i - central (fc j) (cell x) i 1e-5) <=
         1e-3 * Rabs (gc j (cell x) i))%R)).
Proof.
  intros E n m f0 fc g0 gc x HE Rf Rc Lx. unfold verify_gradients. cbv zeta.
  unfold afill. change (fill m true) with (mkArr m (fun _ : nat => true)).
  destruct (fd_loop_ok E n m f0 fc g0 gc x 1e-5 (fill n 0%R) (fill (n * m) 0%R) HE Rf Rc)
    as [og [gg [E1 [L1 [L2 [C1 C2]]]]]]; auto; [lra|].
  rewrite E1. cbn [bind fst snd].
  set (b := E x true (mkArr m (fun _ => true)) _).
  destruct HE as [Hs [_ [_ [Hd [Hg _]]]]].
  destruct (compare_grads_ok n m 1e-3 (e_dobj b) (e_df b) og gg) as [r [Er Hr]]; auto.
  - lra.
  - unfold b. destruct (Hs x true (mkArr m (fun _ => true))
      (mkBuf 0 (fill n 0%R) (fill m 0%R) (fill (n * m) 0%R))) as [A [B C]]. exact A.
  - unfold b. destruct (Hs x true (mkArr m (fun _ => true))
      (mkBuf 0 (fill n 0%R) (fill m 0%R) (fill (n * m) 0%R))) as [A [B C]]. exact C.
  - exists r. split; auto. rewrite Hr. split; intros [A B]; split.
    + intros i Hi. specialize (A i Hi). unfold b in A. rewrite Hd, C1 in A by auto. exact A.
    + intros i j Hi Hj. specialize (B i j Hi Hj). unfold b in B. rewrite Hg, C2 in B by auto.
      exact B.
    + intros i Hi. unfold b. rewrite Hd, C1 by auto. auto.
    + intros i j Hi Hj. unfold b. rewrite Hg, C2 by auto. auto.
Qed.

(** C38: central differences are exact for quadratic functions. *)
Theorem C38_central_exact_for_quadratics : forall n f x i d g, quadratic n f -> i < n ->
  d <> 0%R -> partial f x i g -> central f x i d = g.
Proof. exact quadratic_central. Qed.

(** Hence for quadratic problems the check accepts the true gradients and rejects a gradient with
    a relative error above the tolerance. *)
Theorem C38_quadratic_problems : forall E n m f0 fc g0 gc x,
  computes E n m f0 fc g0 gc -> quadratic n f0 -> (forall j, j < m -> quadratic n (fc j)) ->
  len x = n ->
  ((forall i, i < n -> partial f0 (cell x) i (g0 (cell x) i)) ->
   (forall i j, i < n -> j < m -> partial (fc j) (cell x) i (gc j (cell x) i)) ->
   verify_gradients E n m x = Ok true) /\
  (forall i d, i < n -> partial f0 (cell x) i d ->
   (1e-3 * Rabs (g0 (cell x) i) < Rabs (g0 (cell x) i - d))%R ->
   verify_gradients E n m x = Ok false).
Proof.
  intros E n m f0 fc g0 gc x HE Q0 Qc Lx.
  assert (RQ : forall f, quadratic n f -> respects n f).
  { intros f [c [b [A H]]] v w Hvw. rewrite !H. f_equal; [f_equal|].
    - apply sum_ext. intros. now rewrite Hvw.
    - apply sum_ext. intros k Hk. apply sum_ext. intros l Hl. now rewrite !Hvw. }
  destruct (C38_verify_gradients E n m f0 fc g0 gc x HE) as [b [Eb Hb]]; auto.
  split.
  - intros G0 Gc. rewrite Eb. f_equal. apply Hb. split.
    + intros i Hi. rewrite (quadratic_central n f0 (cell x) i 1e-5 _ Q0 Hi ltac:(lra) (G0 i Hi)).
      rewrite Rminus_eq_0, Rabs_R0. pose proof (Rabs_pos (g0 (cell x) i)). lra.
    + intros i j Hi Hj.
      rewrite (quadratic_central n (fc j) (cell x) i 1e-5 _ (Qc j Hj) Hi ltac:(lra)
                 (Gc i j Hi Hj)).
      rewrite Rminus_eq_0, Rabs_R0. pose proof (Rabs_pos (gc j (cell x) i)). lra.
  - intros i d Hi Hd Hbad. rewrite Eb. f_equal. destruct b; auto. exfalso.
    destruct (proj1 Hb eq_refl) as [A _]. specialize (A i Hi).
    rewrite (quadratic_central n f0 (cell x) i 1e-5 _ Q0 Hi ltac:(lra) Hd) in A. lra.
Qed.

(** ** The hypotheses are met *)

(** A user callback: f0 = x0^2, one constraint x0 - 3, exact gradients. *)
Definition demo_eval : evaluator := fun x og eg b =>
  mkBuf (cell x 0 * cell x 0)%R
    (if og then mkArr (len (e_dobj b)) (fun _ => 2 * cell x 0)%R else e_dobj b)
    (mkArr (len (e_f b)) (fun _ => cell x 0 - 3)%R)
    (if cell eg 0%nat then mkArr (len (e_df b)) (fun _ => 1%R) else e_df b).
Example C38_nonvacuous :
  computes demo_eval 1 1 (fun x => x 0%nat * x 0%nat)%R (fun _ x => x 0%nat - 3)%R
    (fun x _ => 2 * x 0%nat)%R (fun _ _ _ => 1%R) /\
  quadratic 1 (fun x => x 0%nat * x 0%nat)%R /\ quadratic 1 (fun x => x 0%nat - 3)%R.
Proof.
  split; [|split].
  - unfold computes, demo_eval. split.
    { intros x og eg b. cbn. destruct og, (cell eg 0); auto. }
    split; [reflexivity|]. split; [reflexivity|]. split; [reflexivity|].
    split; [reflexivity|]. split; reflexivity.
  - exists 0%R, (fun _ => 0%R), (fun _ _ => 1%R). intro x. simpl. ring.
  - exists (-3)%R, (fun _ => 1%R), (fun _ _ => 0%R). intro x. simpl. ring.
Qed.
Example C33_nonvacuous : keeps_sizes demo_eval /\ len (fill 6 0%R) = 3 * 2.
Proof. split; [apply C38_nonvacuous|reflexivity]. Qed.

(** Two of three constraints active in DOT. *)
Example C33_dot_nonvacuous :
  let iwk := mkArr (dot_nriwk 2 3) (fun i => match i with 0 => 3 | _ => 1 end) in
  forall i, i < 2 -> 1 <= cell iwk i <= 3.
Proof. intros iwk i Hi. destruct i as [|[|]]; simpl; lia. Qed.

(** A GCMMA run within the bounds whose origin is feasible, one iteration per constraint value. *)
Example C34_nonvacuous : exists g,
  gcmma_loop 1 (fun x => x 0%nat) (fun x _ => x 0%nat) (fun _ _ _ _ => 1%R) (fun _ _ _ => true)
    15 1 5 1e-6 1 5 (gcmma_init 5 (fun _ => 0%R)) = Ok g /\ List.length (g_trace g) = 2 /\
  in_box 1 (fun _ => (-1)%R) (fun _ => 1%R) (fun _ => 0%R).
Proof.
  assert (B : forall old x tr, backtrack 1 (fun x _ => x 0%nat) 5 0.02 old x (fun _ => 1%R) tr
     = Ok ((fun _ => 1%R), tr)).
  { intros. cbn [backtrack Nat.eqb].
    replace (rltb 100 1) with false by (symmetry; apply rltb_false; lra). reflexivity. }
  eexists. split; [|split].
  - cbn [gcmma_loop]. unfold outer. cbv zeta.
    cbn [inner gcmma_init g_x g_old1 g_trace g_iter]. rewrite B. cbn [bind fst snd].
    cbn [Nat.eqb g_f0s gcmma_init Nat.sub]. unfold afill. rewrite set_ok by (cbn; lia).
    cbn [bind len cell fill]. change (0 mod 5) with 0.
    reflexivity.
  - reflexivity.
  - intros i _. lra.
Qed.

(** Backtracking that always ends: constraint at most 100 everywhere. *)
Example C35_nonvacuous : forall old1 xmma tr, exists r,
  backtrack 1 (fun _ _ => 5%R) 0 0.02 old1 xmma xmma tr = Ok r.
Proof.
  intros. cbn [backtrack Nat.eqb].
  replace (rltb 100 5) with false by (symmetry; apply rltb_false; lra). eauto.
Qed.
Example C36_nonvacuous : npsol_message 11 = Ok (10, 11)%Z /\ npsol_message 71 = Ok (10, 71)%Z.
Proof. split; reflexivity. Qed.

Print Assumptions C33_nlopt_gradient.
Print Assumptions C33_nlopt_objective_gradient.
Print Assumptions C33_nlopt_values_refuted.
Print Assumptions C33_nlopt_tolerance_refuted.
Print Assumptions C33_dot_gradient.
Print Assumptions C34_evaluations_in_bounds_partial.
Print Assumptions C34_evaluations_in_bounds_refuted.
Print Assumptions C34_no_constraints_refuted.
Print Assumptions C35_relative_change_partial.
Print Assumptions C35_early_stop_refuted.
Print Assumptions C35_iteration_limit_partial.
Print Assumptions C35_backtracking_endless_refuted.
Print Assumptions C36_exit_category_refuted.
Print Assumptions C36_success_refuted.
Print Assumptions C37_bounds_partial.
Print Assumptions C37_equality_bounds_refuted.
Print Assumptions C38_verify_gradients.
Print Assumptions C38_central_exact_for_quadratics.
Print Assumptions C38_quadratic_problems.
