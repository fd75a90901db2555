(** C237: reinitialization of a level set. *)
From Coq Require Import Reals.
From Coquelicot Require Import Coquelicot.
From Coq Require Import List Arith Bool Permutation Lia Lra FunctionalExtensionality.
From Verif Require Import Base BaseLemmas Sens_Model Sens_Spec Mph_Model Mph_Spec Mph_Props2 Lri_Model Lri_Spec.
Import ListNotations.
Open Scope R_scope.

(** the elements with the reference held, as elements of an ordinary time step *)
Definition held (ref : vec) (e : relem) : telem :=
  mkTe (rdofs e) (fun th q => r_res e th (gather (rdofs e) ref) q) (fun th q => r_jac e th (gather (rdofs e) ref) q)
    (fun _ _ _ _ => 0) (fun _ _ _ _ => 0) (fun _ _ _ _ => 0).
Definition held_sys (S : rsys) (ref : vec) : tsys :=
  mkT (r_cons S) (map (map (held ref)) (r_ranks S)) (r_scheme S) None.
Lemma over_held {A} S ref (f : A -> relem -> A) (g : A -> telem -> A) a : (forall a e, g a (held ref e) = f a e) ->
  over (held_sys S ref) g a = ri_over S f a.
Proof.
  intros H. unfold over, ri_over, held_sys. cbn [t_ranks]. revert a. induction (r_ranks S) as [|rk t IH]; intros a; [reflexivity|].
  cbn [map fold_left]. rewrite IH. f_equal. clear -H. revert a. induction rk as [|e l IH]; intros a; [reflexivity|]. cbn [map fold_left]. rewrite H. apply IH.
Qed.
Lemma held_elems S ref : step_elems (held_sys S ref) = map (held ref) (reinit_elems S).
Proof. unfold step_elems, reinit_elems, held_sys. cbn [t_ranks]. now rewrite concat_map. Qed.
Lemma held_dofs S ref : existsb (fun e => negb (length (tdofs e) =? 0)%nat) (concat (t_ranks (held_sys S ref))) =
  existsb (fun e => negb (length (rdofs e) =? 0)%nat) (concat (r_ranks S)).
Proof.
  change (concat (t_ranks (held_sys S ref))) with (step_elems (held_sys S ref)). rewrite held_elems. unfold reinit_elems.
  induction (concat (r_ranks S)) as [|e l IH]; [reflexivity|]. cbn. now rewrite IH.
Qed.
Lemma as_step checked S th s a wr wj prev X : ref_ptr s = Some a -> may checked S ->
  reinit_assembly checked S th s wr wj prev X = residual_and_jacobian (held_sys S (store s a)) th wr wj prev X.
Proof.
  intros P M. unfold reinit_assembly, residual_and_jacobian. rewrite P, held_dofs. cbn [t_post held_sys].
  assert (Q : checked && r_prop S && existsb (fun _ => true) (concat (r_ranks S)) = false).
  { unfold may in M. destruct checked, (r_prop S); cbn [andb]; try reflexivity. rewrite (M eq_refl eq_refl : concat (r_ranks S) = []). reflexivity. }
  rewrite Q. destruct (negb wr && negb wj && _); [reflexivity|]. f_equal. f_equal.
  - destruct wr; [|reflexivity]. f_equal. symmetry. apply over_held. reflexivity.
  - destruct wj; [|reflexivity]. f_equal. symmetry. apply over_held. reflexivity.
Qed.
Lemma held_residual S th ref prev X i : step_residual (held_sys S ref) th prev X i = reinit_equations S th ref prev X i.
Proof. unfold step_residual, reinit_equations. rewrite held_elems. unfold total. rewrite map_map. reflexivity. Qed.
Lemma held_ok S ref : reinit_ok S -> step_ok (held_sys S ref).
Proof.
  intros [A B]. split; [|exact B]. intros e d He. rewrite held_elems in He. apply in_map_iff in He. destruct He as (r & <- & Hr). exact (A r d Hr).
Qed.

(** The residual is the one of the equations for the reference, as it is when the residual is assembled ... *)
Theorem C237_residual : forall checked S th s a wj prev X, ref_ptr s = Some a -> may checked S ->
  exists r j, reinit_assembly checked S th s true wj prev X = Ok (Some r, j) /\
    forall i, r i = if constrained (r_cons S) i then 0 else reinit_equations S th (store s a) prev X i.
Proof.
  intros checked S th s a wj prev X P M. rewrite (as_step checked S th s a) by auto.
  destruct (C200_residual (held_sys S (store s a)) th prev X wj eq_refl) as (r & j & E & H). exists r, j. split; [exact E|].
  intros i. rewrite H, held_residual. reflexivity.
Qed.
(** ... and the matrix its derivative. *)
Theorem C237_jacobian : forall checked S th s a wr prev X, ref_ptr s = Some a -> may checked S -> reinit_ok S ->
  exists r j, reinit_assembly checked S th s wr true prev X = Ok (r, Some j) /\
    forall y i, (i < n (r_cons S))%nat -> admissible (r_cons S) y -> row (r_cons S) i = None ->
      (forall e, In e (reinit_elems S) -> reinit_jacobian th (r_scheme S) (store s a) prev e (gather (rdofs e) X)) ->
      is_derive (fun t => reinit_equations S th (store s a) prev (fun d => X d + t * y d) i) 0 (sum (n (r_cons S)) (fun l => j i l * y l)).
Proof.
  intros checked S th s a wr prev X P M K. rewrite (as_step checked S th s a) by auto.
  destruct (C200_jacobian (held_sys S (store s a)) th prev X wr eq_refl (held_ok S _ K)) as (r & j & E & H). exists r, j. split; [exact E|].
  intros y i Hi A R0 J. apply (is_derive_ext (fun t => step_residual (held_sys S (store s a)) th prev (fun d => X d + t * y d) i));
    [intros; apply held_residual|]. apply H; auto.
  intros e He. rewrite held_elems in He. apply in_map_iff in He. destruct He as (r' & <- & Hr). exact (J r' Hr).
Qed.
(** Neither depends on how the elements are distributed. *)
Theorem C237_distribution : forall checked S S' th s prev X r r' j j', r_cons S' = r_cons S -> r_scheme S' = r_scheme S ->
  Permutation (reinit_elems S) (reinit_elems S') ->
  reinit_assembly checked S th s true true prev X = Ok (Some r, Some j) -> reinit_assembly checked S' th s true true prev X = Ok (Some r', Some j') ->
  (forall i, r i = r' i) /\ (forall a b, j a b = j' a b).
Proof.
  intros checked S S' th s prev X r r' j j' C Sc Pm E E'.
  destruct (ref_ptr s) as [a|] eqn:P; [|unfold reinit_assembly in E; rewrite P in E; discriminate].
  assert (M : forall S r j, reinit_assembly checked S th s true true prev X = Ok (r, j) -> may checked S).
  { intros S0 r0 j0 E0 -> Q. unfold reinit_assembly in E0. rewrite P, Q in E0. cbn [andb] in E0. unfold reinit_elems.
    destruct (concat (r_ranks S0)); [reflexivity|discriminate]. }
  rewrite (as_step checked S th s a) in E by eauto. rewrite (as_step checked S' th s a) in E' by eauto.
  apply (C200_distribution (held_sys S (store s a)) (held_sys S' (store s a)) th prev X); auto.
  rewrite !held_elems. now apply Permutation_map.
Qed.
(** What is refused: no reference, never set or cleared; a second one without clearing; the propagation mode; nothing asked for. *)
Theorem C237_refused : forall checked S th wr wj prev X,
  (forall s, ref_ptr s = None -> reinit_assembly checked S th s wr wj prev X = Fault NullDeref) /\
  (forall m, exists s, rcalls checked m [] = Ok s /\ ref_ptr s = None) /\
  (forall m l s, rcalls checked m l = Ok s -> exists s', rcalls checked m (l ++ [RClear]) = Ok s' /\ ref_ptr s' = None) /\
  (forall m l s a b, rcalls true m l = Ok s -> ref_ptr s = Some a -> rcalls true m (l ++ [RSet b]) = Fault AssertFailed) /\
  (forall s a, ref_ptr s = Some a -> r_prop S = true -> reinit_elems S <> [] -> reinit_assembly true S th s wr wj prev X = Fault AssertFailed) /\
  (forall s a e, ref_ptr s = Some a -> In e (reinit_elems S) -> rdofs e <> [] -> reinit_assembly checked S th s false false prev X = Fault AssertFailed).
Proof.
  intros checked S th wr wj prev X. split; [|split; [|split; [|split; [|split]]]].
  - intros s P. unfold reinit_assembly. now rewrite P.
  - intros m. eexists. split; reflexivity.
  - intros m l s E. unfold rcalls in *. rewrite fold_left_app, E. cbn. eexists. split; reflexivity.
  - intros m l s a b E P. unfold rcalls in *. rewrite fold_left_app, E. cbn. now rewrite P.
  - intros s a P Q N. unfold reinit_assembly. rewrite P, Q. cbn [andb]. unfold reinit_elems in N. destruct (concat (r_ranks S)); [congruence|reflexivity].
  - intros s a e P I N. unfold reinit_assembly. rewrite P. cbn [negb andb].
    assert (Q : existsb (fun e => negb (length (rdofs e) =? 0)%nat) (concat (r_ranks S)) = true).
    { apply existsb_exists. exists e. split; [exact I|]. destruct (rdofs e); [congruence|reflexivity]. }
    rewrite Q. destruct (checked && r_prop S && _); reflexivity.
Qed.
(** The vector set last is the reference, with the values it has been given since. *)
Lemma writes_run checked l : forall p m, fold_left (rcall_step checked) (writes l) (Ok (mkRst p m)) =
  Ok (mkRst p (fold_left (fun m w => upd m (fst w) (snd w)) l m)).
Proof. induction l as [|[b w] l IH]; intros p m; [reflexivity|]. cbn [writes map fold_left]. cbn [rcall_step bind fst snd ref_ptr store]. apply IH. Qed.
Lemma written_at l : forall m a, fold_left (fun m w => upd m (fst w) (snd w)) l m a = written l a (m a).
Proof. induction l as [|[b w] l IH]; intros m a; [reflexivity|]. cbn [fold_left written fst snd]. now rewrite IH. Qed.
Theorem C237_reference : forall checked m l s a ws, rcalls checked m l = Ok s -> (checked = false \/ ref_ptr s = None) ->
  exists s', rcalls checked m (l ++ RSet a :: writes ws) = Ok s' /\ ref_ptr s' = Some a /\ store s' a = written ws a (store s a).
Proof.
  intros checked m l s a ws E H. unfold rcalls in *. rewrite fold_left_app, E. cbn [fold_left].
  assert (Q : rcall_step checked (Ok s) (RSet a) = Ok (mkRst (Some a) (store s))).
  { cbn [rcall_step bind]. destruct H as [-> | ->]; [reflexivity|destruct checked; reflexivity]. }
  rewrite Q, writes_run. eexists. split; [reflexivity|]. split; [reflexivity|]. cbn [store]. apply written_at.
Qed.

(** One node, implicit Euler with the step one half: the level set moves towards the sign of the reference. *)
Definition sign_elem : relem := mkRe [0%nat] (fun _ ref q k => q 1%nat k - ref k) (fun _ _ _ k l => if (k =? l)%nat then 2 else 0).
Definition one_sys (p : option post) : rsys :=
  mkRs (mkSys 1 1 [] [] (fun _ => false) (fun _ => None) (fun _ => false) None) [[sign_elem]] euler p false.
(** The reference is not the level set at the time it was set: a later change of the vector changes the equations. *)
Theorem C237_held_refuted : exists S m v l l' s s' th prev X r r' j j', rcalls true m l = Ok s /\ l' = l ++ [RWrite 0 v] /\ rcalls true m l' = Ok s' /\ In (RSet 0) l /\
  reinit_assembly true S th s true true prev X = Ok (Some r, j) /\ reinit_assembly true S th s' true true prev X = Ok (Some r', j') /\ r 0%nat <> r' 0%nat.
Proof.
  exists (one_sys None), (fun _ _ => 1), (fun _ => 5), [RSet 0], ([RSet 0] ++ [RWrite 0 (fun _ => 5)]). eexists _, _. exists (fun _ => 0), (fun _ _ => 0), zero. eexists _, _, _, _.
  split; [reflexivity|]. split; [reflexivity|]. split; [reflexivity|]. split; [left; reflexivity|]. split; [reflexivity|]. split; [reflexivity|].
  cbv -[Rplus Rmult IZR Ropp Rinv Rdiv Rminus]. lra.
Qed.
(** A post assembly operation, which the assembly it derives from applies, is without effect. *)
Theorem C237_post_refuted : exists S S' th s prev X r j, r_cons S' = r_cons S /\ r_ranks S' = r_ranks S /\ r_scheme S' = r_scheme S /\ r_post S = None /\
  reinit_assembly true S th s true true prev X = Ok (Some r, Some j) /\ reinit_assembly true S' th s true true prev X = Ok (Some r, Some j) /\
  exists p, r_post S' = Some p /\ post_r p X r 0%nat <> r 0%nat.
Proof.
  set (p := mkPost (fun X r i => r i + 5) (fun X j a b => j a b)).
  exists (one_sys None), (one_sys (Some p)), (fun _ => 0), (mkRst (Some 0%nat) (fun _ _ => 1)), (fun _ _ => 0), zero. eexists _, _.
  split; [reflexivity|]. split; [reflexivity|]. split; [reflexivity|]. split; [reflexivity|]. split; [reflexivity|]. split; [reflexivity|].
  exists p. split; [reflexivity|]. unfold p. cbn [post_r]. lra.
Qed.
(** a case for the hypotheses *)
Example C237_witness : let S := one_sys None in reinit_ok S /\ may true S /\ admissible (r_cons S) (fun _ => 1) /\
  (forall th ref prev X e, In e (reinit_elems S) -> reinit_jacobian th (r_scheme S) ref prev e (gather (rdofs e) X)) /\
  reinit_equations S (fun _ => 0) (fun _ => 3) (fun _ _ => 1) (fun _ => 4) 0%nat = 3.
Proof.
  cbv zeta. split; [|split; [|split; [|split]]].
  - split; [intros e d [<-|[]] [<-|[]]; cbn; lia|intros d r j c E; discriminate].
  - intros _ H. discriminate.
  - intros i r Hi E. discriminate.
  - intros th ref prev X e [<-|[]] p dp _ Hp k Hk. cbn in Hk. assert (k = O) by lia. subst k.
    assert (D : is_derive (fun t => p t O) 0 (dp O)) by (apply Hp; cbn; lia).
    apply (is_derive_ext (fun t => plus (scal 2 (p t O)) (-2 * prev O (dof [0%nat] 0) - gather [0%nat] ref 0%nat))).
    { intros t. cbv [plus scal] . cbn. unfold mult, step_state; cbn. ring. }
    assert (V : sum (length (rdofs sign_elem)) (fun l => r_jac sign_elem th (gather (rdofs sign_elem) ref) (step_state (r_scheme (one_sys None)) prev (rdofs sign_elem) (gather (rdofs sign_elem) X)) 0%nat l * dp l) = plus (scal 2 (dp O)) 0).
    { cbv [plus scal]. cbn. unfold mult; cbn. ring. }
    rewrite V. apply @is_derive_plus; [|apply @is_derive_const]. apply @is_derive_scal. exact D.
  - cbv -[Rplus Rmult IZR Ropp Rinv Rdiv Rminus]. lra.
Qed.
Print Assumptions C237_residual.
Print Assumptions C237_jacobian.
Print Assumptions C237_distribution.
Print Assumptions C237_refused.
Print Assumptions C237_reference.
Print Assumptions C237_held_refuted.
Print Assumptions C237_post_refuted.
