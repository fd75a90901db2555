(** Theorems about the reduced matrices, their sensitivities, the generalised forces and the life of the assembly object. *)
From Coq Require Import Reals.
From Coquelicot Require Import Coquelicot.
From Coq Require Import List Arith Bool Permutation Lia Lra FunctionalExtensionality.
From Verif Require Import Base BaseLemmas Sens_Model Sens_Spec Sens_Proofs Sens_Proofs2 Rom_Model Rom_Spec Rom_Proofs.
Import ListNotations.
Open Scope R_scope.

(** ** C203 reduced matrices *)
(** For modes that respect the constraints the reduced matrices are the quadratic forms of the structure's mass, damping and tangent
    stiffness on the modes.  Missing: modes that do not, and constraints that reach out of an element. *)
Theorem C203_reduced_partial : forall S th base basis nb keys rs,
  (forall e, In e (concat rs) -> fits S e) -> (forall a, (a < nb)%nat -> admissible S (basis a)) -> (forall q, In q keys -> is_matrix q) ->
  exists res, reduced S th true base basis keys rs = Ok res /\ map fst res = keys /\
    forall q M a b, In (q, M) res -> (a < nb)%nat -> (b < nb)%nat ->
      M a b = structure_form rs q th base (basis a) (basis b).
Proof.
  intros S th base basis nb keys rs F A V.
  exists (table keys (fun q a b => total (fun e => red_value S basis e (tangent q th (state_at base e) e) a b) (concat rs))).
  split; [|split].
  - unfold reduced. cbn [assert_]. change (map (fun q => (q, mzero)) keys) with (table keys (fun _ => mzero)).
    apply (processes_table _ keys (fun e q => red_value S basis e (tangent q th (state_at base e) e))). intros es I.
    unfold reduce_local. change (map (fun q => (q, mzero)) keys) with (table keys (fun _ => mzero)).
    replace (reduce_elem S th base basis) with (fun e acc => each (fun q a => p <- elem_red S basis e (elem_matrix q th (at_base base (rdofs e)) e) ;; Ok (madd a p)) acc).
    2:{ apply functional_extensionality; intros e. now rewrite reduce_elem_eq. }
    rewrite (for_table (fun e q => elem_red S basis e (elem_matrix q th (at_base base (rdofs e)) e)) (fun e q => red_value S basis e (tangent q th (state_at base e) e))).
    + do 2 f_equal. apply functional_extensionality; intros q. apply functional_extensionality; intros a. apply functional_extensionality; intros b. unfold mzero. ring.
    + intros e q He Hq. rewrite at_base_state, matrix_tangent by auto. apply elem_red_ok. apply F. apply in_concat. eauto.
  - apply table_fst.
  - intros q M a b H Ha Hb. apply in_table in H. destruct H as [_ ->]. unfold structure_form. apply total_ext. intros e He. apply red_form; auto.
Qed.
(** They are symmetric if those of the elements are. *)
Theorem C203_symmetric : forall rs q th base x y,
  (forall e k l, In e (concat rs) -> (k < length (rdofs e))%nat -> (l < length (rdofs e))%nat ->
     tangent q th (state_at base e) e k l = tangent q th (state_at base e) e l k) ->
  structure_form rs q th base x y = structure_form rs q th base y x.
Proof.
  intros rs q th base x y H. unfold structure_form. apply total_ext. intros e He. unfold form. rewrite sum_swap. apply sum_ext. intros k Hk. apply sum_ext. intros l Hl.
  rewrite (H e l k) by auto. ring.
Qed.
(** How the elements are distributed over the processes makes no difference. *)
Theorem C203_distribution : forall S th base basis nb keys rs rs' res res',
  (forall e, In e (concat rs) -> fits S e) -> (forall a, (a < nb)%nat -> admissible S (basis a)) -> (forall q, In q keys -> is_matrix q) ->
  Permutation (concat rs) (concat rs') ->
  reduced S th true base basis keys rs = Ok res -> reduced S th true base basis keys rs' = Ok res' ->
  forall q M M' a b, In (q, M) res -> In (q, M') res' -> (a < nb)%nat -> (b < nb)%nat -> M a b = M' a b.
Proof.
  intros S th base basis nb keys rs rs' res res' F A V P E E' q M M' a b H H' Ha Hb.
  destruct (C203_reduced_partial S th base basis nb keys rs F A V) as (r & Q & _ & X). rewrite E in Q. injection Q as <-.
  destruct (C203_reduced_partial S th base basis nb keys rs') as (r & Q & _ & X'); auto.
  { intros e He. apply F. apply (Permutation_in _ (Permutation_sym P)). exact He. }
  rewrite E' in Q. injection Q as <-. rewrite (X q M a b), (X' q M' a b) by auto. unfold structure_form. now apply total_perm.
Qed.
Lemma elem_red_iff S th basis base e q : (exists p, elem_red S basis e (elem_matrix q th (at_base base (rdofs e)) e) = Ok p) <-> is_matrix q /\ inside S e.
Proof.
  unfold elem_red.
  assert (P : forall m, (exists p, (let '(ds', m') := constrain_matrix S (rdofs e) m in project basis (rdofs e) (length ds') m') = Ok p) <-> inside S e).
  { intros m. unfold constrain_matrix. destruct (existsb (constrained S) (rdofs e)) eqn:C.
    - unfold project. destruct (Nat.eqb_spec (length (rdofs e ++ reached S (rdofs e))) (length (rdofs e))) as [Q|Q]; cbn [assert_].
      + split; [intros _; exact (proj1 (reached_iff S (rdofs e)) Q)|eauto].
      + split; [intros [p X]; discriminate|]. intros I. exfalso. exact (Q (proj2 (reached_iff S (rdofs e)) I)).
    - unfold project. rewrite Nat.eqb_refl. cbn [assert_]. split; [|eauto]. intros _ d r j c Hd E Hj. exfalso.
      rewrite <- not_true_iff_false in C. apply C. apply existsb_exists. exists d. split; auto. unfold constrained. now rewrite E. }
  unfold is_matrix. destruct q; cbn [elem_matrix bind].
  1-3: rewrite P; intuition congruence.
  1-2: split; [intros [p X]; discriminate|intros [[X|[X|X]] _]; discriminate].
Qed.
(** Exactly when it succeeds. *)
Theorem C203_total : forall S th ops base basis keys rs, (exists res, reduced S th ops base basis keys rs = Ok res) <->
  ops = true /\ forall e q, In e (concat rs) -> In q keys -> is_matrix q /\ inside S e.
Proof.
  intros S th ops base basis keys rs. unfold reduced. destruct ops; [|split; [intros [r E]; discriminate|intros [E _]; discriminate]]. cbn [assert_].
  set (K := fun e q => elem_red S basis e (elem_matrix q th (at_base base (rdofs e)) e)).
  set (st := fun e acc => each (fun q a => p <- K e q ;; Ok (madd a p)) acc).
  assert (St : reduce_elem S th base basis = st) by (apply functional_extensionality; intros e; unfold st; now rewrite reduce_elem_eq).
  assert (Fw : forall es l l', for_elems st es l = Ok l' -> map fst l' = map fst l /\ forall e q, In e es -> In q (map fst l) -> exists p, K e q = Ok p).
  { induction es as [|e t IH]; intros l l' E; cbn in E.
    - injection E as <-. split; auto. intros e q [].
    - destruct (st e l) as [l1|] eqn:E1; [|discriminate]. cbn in E. unfold st in E1. assert (Q := each_fst _ _ _ E1). destruct (IH l1 l' E) as [A B].
      rewrite Q in *. split; auto. intros e' q [<-|H] Hq; [exact (each_inv _ _ _ E1 q Hq)|]. apply B; auto. }
  split.
  - intros [res E]. split; auto. intros e q He Hq. apply in_concat in He. destruct He as (es & Hes & He).
    apply (proj1 (elem_red_iff S th basis base e q)). change (exists p, K e q = Ok p).
    revert res E. induction rs as [|r t IH]; intros res E; [destruct Hes|]. cbn [over_processes] in E.
    destruct (reduce_local S th base basis keys r) as [l|] eqn:L; [|discriminate]. cbn [bind] in E.
    destruct (over_processes _ _ _ t) as [l2|] eqn:T; [|discriminate]. destruct Hes as [->|Hes]; [|exact (IH Hes l2 eq_refl)].
    unfold reduce_local in L. rewrite St in L. destruct (Fw es _ _ L) as [_ W]. apply W; auto. rewrite map_map. cbn. now rewrite map_id.
  - intros [_ H].
    assert (exists k, forall e q, In e (concat rs) -> In q keys -> K e q = Ok (k e q)) as [k Hk].
    { exists (fun e q => match K e q with Ok p => p | Fault _ => mzero end). intros e q He Hq.
      destruct (proj2 (elem_red_iff S th basis base e q) (H e q He Hq)) as [p E]. unfold K. now rewrite E. }
    change (map (fun q => (q, mzero)) keys) with (table keys (fun _ => mzero)). eexists. apply (processes_table _ keys k). intros es I.
    unfold reduce_local. rewrite St. change (map (fun q => (q, mzero)) keys) with (table keys (fun _ => mzero)). unfold st. rewrite (for_table K k).
    + do 2 f_equal. apply functional_extensionality; intros q. apply functional_extensionality; intros a. apply functional_extensionality; intros b. unfold mzero. ring.
    + intros e q He Hq. apply Hk; auto. apply in_concat. eauto.
Qed.
(** A spring between two dofs. *)
Definition none2 : params -> vec -> matrix * matrix := fun _ _ => (mzero, mzero).
Definition none3 : params -> vec -> matrix * matrix * matrix := fun _ _ => (mzero, mzero, mzero).
Definition dnone2 : params -> nat -> vec -> matrix * matrix := fun _ _ _ => (mzero, mzero).
Definition dnone3 : params -> nat -> vec -> matrix * matrix * matrix := fun _ _ _ => (mzero, mzero, mzero).
Definition spring (ds : list nat) : relem :=
  mkRe ds (fun th _ k l => if (k =? l)%nat then th O else - th O) none3 none2 none2
    (fun _ f _ k l => if (f =? 0)%nat then if (k =? l)%nat then 1 else -1 else 0) (fun _ _ _ => mzero) dnone3 dnone2 dnone2 (fun _ _ s => s).
Definition one_th : params := fun _ => 1.
Definition sys_of (m : nat) (r : nat -> option (list (nat * R))) : sys := mkSys m 1 [] [] (fun _ => false) r (fun _ => false) None.
(** dof 0 is fixed, dof 2 follows dof 1 *)
Definition ties : nat -> option (list (nat * R)) := fun d => match d with O => Some [] | 2%nat => Some [(1%nat, 1)] | _ => None end.
Example C203_example : let S := sys_of 3 ties in let rs := [[spring [0%nat; 1%nat]]; [spring [1%nat; 2%nat]]] in
  let basis := fun (_ d : nat) => match d with O => 0 | _ => 2 end in
  (forall e, In e (concat rs) -> fits S e) /\ admissible S (basis O) /\ structure_form rs QStiffness one_th None (basis O) (basis O) = 4.
Proof.
  cbv zeta. split; [|split].
  - assert (T : forall d r j c, ties d = Some r -> In (j, c) r -> d = 2%nat /\ j = 1%nat).
    { intros d r j c E Hj. destruct d as [|[|[|d]]]; cbn in E; try discriminate; injection E as <-; [destruct Hj|]. destruct Hj as [Hj|[]]. assert (j = 1%nat) by congruence. auto. }
    intros e [<-|[<-|[]]]; (split; [repeat constructor; cbn; intuition discriminate|]); (split; [intros d [<-|[<-|[]]]; cbn; lia|]);
      (split; intros d r j c Hd E Hj; cbn in E; destruct (T d r j c E Hj) as [-> ->]; cbn in *; auto).
  - intros i r Hi E. cbn in Hi, E. destruct i as [|[|[|i]]]; try discriminate; injection E as <-; cbn; ring.
  - cbv -[Rplus Rmult IZR Ropp Rinv Rdiv Rminus]. ring.
Qed.
(** A mode that moves a fixed dof is given the stiffness one at that dof, once for each element there. *)
Theorem C203_inadmissible_refuted : exists S th basis rs res M, (forall e, In e (concat rs) -> fits S e) /\
  reduced S th true None basis [QStiffness] rs = Ok res /\ In (QStiffness, M) res /\
  structure_form rs QStiffness th None (basis O) (basis O) = 0 /\ M O O = 2.
Proof.
  exists (sys_of 3 (fun d => match d with 1%nat => Some [] | _ => None end)), (fun _ => 0), (fun _ _ => 1), [[spring [0%nat; 1%nat]]; [spring [1%nat; 2%nat]]].
  eexists _, _. split; [|split; [reflexivity|split; [left; reflexivity|]]].
  - intros e [<-|[<-|[]]]; (split; [repeat constructor; cbn; intuition discriminate|]); (split; [intros d [<-|[<-|[]]]; cbn; lia|]);
      (split; intros d r j c [<-|[<-|[]]] E Hj; cbn in E; try discriminate; injection E as <-; destruct Hj).
  - split; cbv -[Rplus Rmult IZR Ropp Rinv Rdiv Rminus]; ring.
Qed.
(** A hanging node, whose constraint refers to a node of the neighbour, stops it. *)
Theorem C203_hanging_refuted : exists S th basis rs, (forall a, admissible S (basis a)) /\ (forall e, In e (concat rs) -> NoDup (rdofs e)) /\
  reduced S th true None basis [QStiffness] rs = Fault AssertFailed.
Proof.
  exists (sys_of 3 (fun d => match d with 1%nat => Some [(0%nat, / 2); (2%nat, / 2)] | _ => None end)), one_th, (fun _ d => INR d), [[spring [1%nat; 2%nat]]].
  split; [|split; [|reflexivity]].
  - intros a i r Hi E. cbn in Hi, E. destruct i as [|[|i]]; try discriminate. injection E as <-. cbn. field.
  - intros e [<-|[]]. repeat constructor; cbn; intuition discriminate.
Qed.

(** ** C204 sensitivity of the reduced matrices *)
Section Rate.
Variables (S : sys) (th : params) (f : nat) (basis : nat -> vec) (keys : list qty).
Definition sens_value (fl : bool) (q : qty) (x dx : vec) (e : relem) : matrix :=
  match elem_matrix_sens q th f fl x dx e with Ok m => m | Fault _ => mzero end.
Definition sens_red fl base dbase e q : matrix := red_value S basis e (sens_value fl q (at_base base (rdofs e)) (at_base dbase (rdofs e)) e).
Lemma sens_ok fl q x dx e : is_matrix q -> elem_matrix_sens q th f fl x dx e = Ok (sens_value fl q x dx e).
Proof. intros [E|[E|E]]; rewrite E; reflexivity. Qed.
Lemma sens_each fl base dbase e g : fits S e -> (forall q, In q keys -> is_matrix q) ->
  each (fun q a => m <- elem_matrix_sens q th f fl (at_base base (rdofs e)) (at_base dbase (rdofs e)) e ;;
     let '(ds', m') := constrain_matrix S (rdofs e) m in p <- project basis (rdofs e) (length ds') m' ;; Ok (madd a p)) (table keys g)
  = Ok (table keys (fun q => madd (g q) (sens_red fl base dbase e q))).
Proof.
  intros F V.
  replace (fun q a => m <- elem_matrix_sens q th f fl (at_base base (rdofs e)) (at_base dbase (rdofs e)) e ;;
     let '(ds', m') := constrain_matrix S (rdofs e) m in p <- project basis (rdofs e) (length ds') m' ;; Ok (madd a p))
    with (fun q a => p <- elem_red S basis e (elem_matrix_sens q th f fl (at_base base (rdofs e)) (at_base dbase (rdofs e)) e) ;; Ok (madd a p)).
  - apply each_add. intros q Hq. rewrite sens_ok by auto. now apply elem_red_ok.
  - apply functional_extensionality; intros q. apply functional_extensionality; intros g'. unfold elem_red.
    destruct (elem_matrix_sens _ _ _ _ _ _ _); [|reflexivity]. cbn. destruct (constrain_matrix _ _ _). reflexivity.
Qed.
Lemma empty_red fl fl' base dbase e q : rdofs e = [] -> sens_red fl base dbase e q = sens_red fl' base dbase e q.
Proof. intros E. unfold sens_red, red_value. apply functional_extensionality; intros a. apply functional_extensionality; intros b. now rewrite E. Qed.
Lemma sens_for fl base dbase es : (forall e, In e es -> fits S e) -> (forall q, In q keys -> is_matrix q) -> forall fl0 g,
  (base = None -> fl0 = fl) -> (base <> None -> fl = true) ->
  exists fl', for_elems (sens_step S th f base dbase basis) es (fl0, table keys g)
    = Ok (fl', table keys (fun q a b => g q a b + total (fun e => sens_red fl base dbase e q a b) es)).
Proof.
  intros F V. induction es as [|e t IH]; intros fl0 g B0 B1; cbn [for_elems].
  - exists fl0. do 3 f_equal. apply functional_extensionality; intros q. apply functional_extensionality; intros a. apply functional_extensionality; intros b.
    unfold total. cbn. ring.
  - unfold sens_step at 1. cbn [fst snd]. set (fl1 := match base with Some _ => match rdofs e with _ :: _ => true | [] => fl0 end | None => fl0 end).
    rewrite (sens_each fl1) by (auto; apply F; now left). cbn [bind].
    destruct (IH (fun e' He => F e' (or_intror He)) fl1 (fun q => madd (g q) (sens_red fl1 base dbase e q))) as [fl' E].
    + intros Bn. unfold fl1. rewrite Bn. now apply B0.
    + exact B1.
    + exists fl'. rewrite E. do 3 f_equal. apply functional_extensionality; intros q. apply functional_extensionality; intros a. apply functional_extensionality; intros b.
      rewrite total_cons. unfold madd.
      assert (Q : sens_red fl1 base dbase e q = sens_red fl base dbase e q).
      { unfold fl1. destruct base as [X|]; [|now rewrite B0]. destruct (rdofs e) eqn:D; [now apply empty_red|]. rewrite B1 by discriminate. reflexivity. }
      rewrite Q. ring.
Qed.
Lemma sens_all fl0 fl base dbase rs : (forall e, In e (concat rs) -> fits S e) -> (forall q, In q keys -> is_matrix q) ->
  (base = None -> fl0 = fl) -> (base <> None -> fl = true) ->
  over_processes (sens_local S th f fl0 base dbase basis keys) add_all (table keys (fun _ => mzero)) rs
  = Ok (table keys (fun q a b => total (fun e => sens_red fl base dbase e q a b) (concat rs))).
Proof.
  intros F V B0 B1. apply (processes_table _ keys (fun e q => sens_red fl base dbase e q)). intros es I. unfold sens_local.
  change (map (fun q => (q, mzero)) keys) with (table keys (fun _ => mzero)).
  destruct (sens_for fl base dbase es (fun e He => F e (proj2 (in_concat _ _) (ex_intro _ es (Logic.conj I He)))) V fl0 (fun _ => mzero) B0 B1) as [fl' E].
  rewrite E. cbn [bind snd]. do 2 f_equal. apply functional_extensionality; intros q. apply functional_extensionality; intros a. apply functional_extensionality; intros b. unfold mzero. ring.
Qed.
Lemma tangent_rate q e x dx (p : R -> vec) k l : is_matrix q -> element_rates th f e x dx ->
  (forall k, (k < length (rdofs e))%nat -> p (th f) k = x k) ->
  (forall k, (k < length (rdofs e))%nat -> is_derive (fun t => p t k) (th f) (dx k)) ->
  (k < length (rdofs e))%nat -> (l < length (rdofs e))%nat ->
  is_derive (fun t => tangent q (at_ th f t) (p t) e k l) (th f) (sens_value true q x dx e k l).
Proof.
  intros V C P0 P1 Hk Hl. destruct (C p P0 P1 k l Hk Hl) as (A & B1 & B2 & B3 & C1 & C2 & D1 & D2). clear C.
  destruct V as [E|[E|E]]; rewrite E; unfold tangent, sens_value; cbn [elem_matrix_sens].
  - exact B1.
  - apply @is_derive_plus; [|exact D1]. apply @is_derive_plus; [exact B2|exact C1].
  - apply @is_derive_plus; [|exact D2]. apply @is_derive_plus; [|exact C2]. apply @is_derive_plus; [exact A|exact B3].
Qed.
Lemma form_rate ds (m : R -> matrix) (dm : matrix) x y t0 :
  (forall k l, (k < length ds)%nat -> (l < length ds)%nat -> is_derive (fun t => m t k l) t0 (dm k l)) ->
  is_derive (fun t => form ds (m t) x y) t0 (form ds dm x y).
Proof.
  intros H. unfold form.
  apply (der_sum (length ds) (fun k t => sum (length ds) (fun l => x (nth k ds O) * m t k l * y (nth l ds O)))
    (fun k => sum (length ds) (fun l => x (nth k ds O) * dm k l * y (nth l ds O)))). intros k Hk.
  apply (der_sum (length ds) (fun l t => x (nth k ds O) * m t k l * y (nth l ds O)) (fun l => x (nth k ds O) * dm k l * y (nth l ds O))). intros l Hl.
  apply (der_ext (fun t => (x (nth k ds O) * y (nth l ds O)) * m t k l) _ t0 ((x (nth k ds O) * y (nth l ds O)) * dm k l)); [intros; ring|ring|].
  apply der_scal. now apply H.
Qed.
End Rate.
(** With a base solution that follows the parameter, after any history (any value of the flag the element operations keep). *)
Theorem C204_base_partial : forall S th f flag (X : R -> vec) dX basis nb keys rs,
  (forall d, is_derive (fun t => X t d) (th f) (dX d)) ->
  (forall e, In e (concat rs) -> fits S e) -> (forall a, (a < nb)%nat -> admissible S (basis a)) -> (forall q, In q keys -> is_matrix q) ->
  (forall e, In e (concat rs) -> element_rates th f e (state_at (Some (X (th f))) e) (state_at (Some dX) e)) ->
  exists res, reduced_sens S th f flag (Some (X (th f))) (Some dX) basis keys rs = Ok res /\ map fst res = keys /\
    forall q M a b, In (q, M) res -> (a < nb)%nat -> (b < nb)%nat ->
      is_derive (fun t => structure_form rs q (at_ th f t) (Some (X t)) (basis a) (basis b)) (th f) (M a b).
Proof.
  intros S th f flag X dX basis nb keys rs DX F A V C. unfold reduced_sens. change (map (fun q => (q, mzero)) keys) with (table keys (fun _ => mzero)).
  rewrite (sens_all S th f basis keys flag true) by (auto; discriminate). eexists. split; [reflexivity|]. split; [apply table_fst|].
  intros q M a b H Ha Hb. apply in_table in H. destruct H as [Hq ->]. unfold structure_form.
  apply (der_total (concat rs) (fun e t => form (rdofs e) (tangent q (at_ th f t) (state_at (Some (X t)) e) e) (basis a) (basis b))). intros e He.
  unfold sens_red. rewrite red_form by auto. apply form_rate. intros k l Hk Hl.
  apply (tangent_rate th f q e _ _ (fun t => state_at (Some (X t)) e) k l); auto; [apply (C e He)|].
  intros k' Hk'. cbn. apply DX.
Qed.
(** Without a base solution. *)
Theorem C204_rest_partial : forall S th f flag dbase basis nb keys rs,
  (forall e, In e (concat rs) -> fits S e) -> (forall a, (a < nb)%nat -> admissible S (basis a)) -> (forall q, In q keys -> is_matrix q) ->
  (forall e, In e (concat rs) -> element_rates th f e (fun _ => 0) (fun _ => 0)) ->
  (forall e k l, In e (concat rs) -> r_jds e th (fun _ => 0) (fun _ => 0) k l = 0) ->
  exists res, reduced_sens S th f flag None dbase basis keys rs = Ok res /\ map fst res = keys /\
    forall q M a b, In (q, M) res -> (a < nb)%nat -> (b < nb)%nat ->
      is_derive (fun t => structure_form rs q (at_ th f t) None (basis a) (basis b)) (th f) (M a b).
Proof.
  intros S th f flag dbase basis nb keys rs F A V C Z. unfold reduced_sens. change (map (fun q => (q, mzero)) keys) with (table keys (fun _ => mzero)).
  rewrite (sens_all S th f basis keys flag flag) by (auto; congruence). eexists. split; [reflexivity|]. split; [apply table_fst|].
  intros q M a b H Ha Hb. apply in_table in H. destruct H as [Hq ->]. unfold structure_form.
  apply (der_total (concat rs) (fun e t => form (rdofs e) (tangent q (at_ th f t) (state_at None e) e) (basis a) (basis b))). intros e He.
  unfold sens_red. rewrite red_form by auto. apply form_rate. intros k l Hk Hl.
  assert (E : sens_value th f flag q (at_base None (rdofs e)) (at_base None (rdofs e)) e k l = sens_value th f true q (fun _ => 0) (fun _ => 0) e k l).
  { change (at_base None (rdofs e)) with (fun _ : nat => 0). destruct flag; [reflexivity|]. destruct (V q Hq) as [E|[E|E]]; rewrite E; try reflexivity.
    unfold sens_value. cbn [elem_matrix_sens]. unfold madd. rewrite (Z e k l He). ring. }
  rewrite E. apply (tangent_rate th f q e _ _ (fun _ => fun _ => 0) k l); auto. intros k' Hk'. apply @is_derive_const.
Qed.
Theorem C204_missing : forall S th f flag X basis keys rs, reduced_sens S th f flag (Some X) None basis keys rs = Fault AssertFailed.
Proof. reflexivity. Qed.
(** A load whose stiffness depends on the base solution: that part is missing. *)
Definition follower : relem :=
  mkRe [0%nat] (fun _ _ => mzero) none3 none2 (fun _ x => (mzero, fun _ _ => x O)) (fun _ _ _ => mzero) (fun _ _ _ => mzero) dnone3 dnone2 dnone2 (fun _ _ s => s).
Theorem C204_load_refuted : exists S th f (X : R -> vec) dX basis rs res M,
  (forall d, is_derive (fun t => X t d) (th f) (dX d)) /\ (forall e, In e (concat rs) -> fits S e) /\ admissible S (basis O) /\
  reduced_sens S th f false (Some (X (th f))) (Some dX) basis [QStiffness] rs = Ok res /\ In (QStiffness, M) res /\ M O O = 0 /\
  is_derive (fun t => structure_form rs QStiffness (at_ th f t) (Some (X t)) (basis O) (basis O)) (th f) 1.
Proof.
  exists (sys_of 1 (fun _ => None)), one_th, O, (fun t _ => t), (fun _ => 1), (fun _ _ => 1), [[follower]]. eexists _, _.
  split; [intros d; apply @is_derive_id|]. split.
  { intros e [<-|[]]. split; [repeat constructor; cbn; tauto|]. split; [intros d [<-|[]]; cbn; lia|]. split; intros; discriminate. }
  split; [intros i r _ E; discriminate|]. split; [reflexivity|]. split; [left; reflexivity|]. split.
  - cbv -[Rplus Rmult IZR Ropp Rinv Rdiv Rminus]. ring.
  - apply (der_ext (fun t => t) _ _ 1); [|reflexivity|apply @is_derive_id]. intros t. cbv -[Rplus Rmult IZR Ropp Rinv Rdiv Rminus]. ring.
Qed.
Example C204_example : forall x dx ds, element_rates one_th O (spring ds) x dx.
Proof.
  intros x dx ds p P0 P1 k l Hk Hl. cbn. unfold mzero. split; [|do 6 (split; [apply @is_derive_const|]); apply @is_derive_const].
  unfold at_. cbn. destruct (k =? l)%nat.
  - apply (der_ext (fun t => t) _ _ 1); [reflexivity|ring|apply @is_derive_id].
  - apply (der_ext (fun t => (-1) * t) _ _ ((-1) * 1)); [intros; ring|ring|]. apply der_scal. apply @is_derive_id.
Qed.

(** ** C205 generalised aerodynamic forces *)
Definition work_re (rs : list (list relem)) (th : params) (base : option vec) (sol : vec * vec) (x : vec) : R :=
  total (fun e => power (rdofs e) (fst (r_aero e th (state_at base e) sol)) x) (concat rs).
Definition work_im (rs : list (list relem)) (th : params) (base : option vec) (sol : vec * vec) (x : vec) : R :=
  total (fun e => power (rdofs e) (snd (r_aero e th (state_at base e) sol)) x) (concat rs).
Section Aero.
Variables (S : sys) (th : params) (base : option vec) (basis : nat -> vec).
Definition col (part : vec * vec -> vec) (sol : vec * vec) (e : relem) (j : nat) : R :=
  sum (length (rdofs e)) (fun k => basis j (dof (rdofs e) k) * snd (constrain_vector S (rdofs e) (part (r_aero e th (at_base base (rdofs e)) sol))) k).
Lemma force_ok sol e g : fits S e -> force_elem S th base basis sol e g =
  Ok (fun j => fst g j + col fst sol e j, fun j => snd g j + col snd sol e j).
Proof.
  intros F. unfold force_elem. rewrite (surjective_pairing (constrain_vector S (rdofs e) (fst _))). rewrite (constrain_vsize S e F), Nat.eqb_refl. cbn [assert_].
  rewrite (surjective_pairing (constrain_vector S (rdofs e) (snd _))). rewrite (constrain_vsize S e F), Nat.eqb_refl. reflexivity.
Qed.
Lemma forces_ok sol es : (forall e, In e es -> fits S e) -> forall g, for_elems (force_elem S th base basis sol) es g =
  Ok (fun j => fst g j + total (fun e => col fst sol e j) es, fun j => snd g j + total (fun e => col snd sol e j) es).
Proof.
  induction es as [|e t IH]; intros F g; cbn [for_elems].
  - destruct g as [a b]. do 2 f_equal; apply functional_extensionality; intros j; unfold total; cbn; ring.
  - rewrite force_ok by (apply F; now left). cbn [bind]. rewrite IH by (intros; apply F; now right). cbn [fst snd].
    do 2 f_equal; apply functional_extensionality; intros j; rewrite total_cons; ring.
Qed.
Lemma processes_ok sol rs : (forall e, In e (concat rs) -> fits S e) ->
  over_processes (fun es => for_elems (force_elem S th base basis sol) es (zero, zero))
    (fun a b => (fun j => fst a j + fst b j, fun j => snd a j + snd b j)) (zero, zero) rs
  = Ok (fun j => total (fun e => col fst sol e j) (concat rs), fun j => total (fun e => col snd sol e j) (concat rs)).
Proof.
  induction rs as [|r t IH]; intros F; cbn [over_processes].
  - do 2 f_equal.
  - rewrite forces_ok by (intros; apply F; cbn; apply in_or_app; now left). cbn [bind].
    rewrite IH by (intros; apply F; cbn; apply in_or_app; now right). cbn [bind fst snd concat].
    do 2 f_equal; apply functional_extensionality; intros j; rewrite total_app; unfold zero; ring.
Qed.
End Aero.
(** Entry (a, b) is the work of the forces of mode b along mode a. *)
Theorem C205_forces_partial : forall S th flow p base nb basis rs, (0 < nb)%nat ->
  (forall e, In e (concat rs) -> fits S e) -> (forall a, (a < nb)%nat -> admissible S (basis a)) ->
  exists re im, aero_matrix S th flow p base nb basis rs = Ok (re, im) /\
    forall a b, (a < nb)%nat -> (b < nb)%nat ->
      re a b = work_re rs th base (flow p (basis b)) (basis a) /\ im a b = work_im rs th base (flow p (basis b)) (basis a).
Proof.
  intros S th flow p base nb basis rs P F A. unfold aero_matrix. destruct (Nat.eqb_spec nb 0); [lia|].
  destruct (loop_inv (fun i (acc : matrix * matrix) => forall a b, (a < nb)%nat -> (b < i)%nat ->
      fst acc a b = work_re rs th base (flow p (basis b)) (basis a) /\ snd acc a b = work_im rs th base (flow p (basis b)) (basis a)) nb
    (fun i (acc : matrix * matrix) =>
      c <- over_processes (fun es => for_elems (force_elem S th base basis (flow p (basis i))) es (zero, zero))
             (fun a b => (fun j => fst a j + fst b j, fun j => snd a j + snd b j)) (zero, zero) rs ;;
      Ok (fun a b => if (b =? i)%nat then fst c a else fst acc a b, fun a b => if (b =? i)%nat then snd c a else snd acc a b)) (mzero, mzero))
    as ([re im] & E & H).
  - intros a b _ Hb. lia.
  - intros i acc Hi I. rewrite processes_ok by auto. cbn [bind fst snd]. eexists. split; [reflexivity|]. intros a b Ha Hb. cbn [fst snd].
    destruct (Nat.eqb_spec b i) as [->|]; [|apply I; lia]. unfold work_re, work_im. split; apply total_ext; intros e He; unfold col; rewrite <- at_base_state.
    + apply constrain_power; auto.
    + apply constrain_power; auto.
  - exists re, im. split; [exact E|]. exact H.
Qed.
(** If flow and forces are linear, the matrix gives the generalised forces of every displacement of the modes. *)
Theorem C205_generalised_partial : forall S th flow base nb basis rs re im q, (0 < nb)%nat ->
  (forall e, In e (concat rs) -> fits S e) -> (forall a, (a < nb)%nat -> admissible S (basis a)) ->
  (forall e k, In e (concat rs) -> (k < length (rdofs e))%nat ->
     let F := fun d => r_aero e th (state_at base e) (flow None d) in
     fst (F (modal nb q basis)) k = sum nb (fun i => q i * fst (F (basis i)) k) /\
     snd (F (modal nb q basis)) k = sum nb (fun i => q i * snd (F (basis i)) k)) ->
  aero_matrix S th flow None base nb basis rs = Ok (re, im) ->
  forall a, (a < nb)%nat ->
    sum nb (fun b => re a b * q b) = work_re rs th base (flow None (modal nb q basis)) (basis a) /\
    sum nb (fun b => im a b * q b) = work_im rs th base (flow None (modal nb q basis)) (basis a).
Proof.
  intros S th flow base nb basis rs re im q P F A L E a Ha.
  destruct (C205_forces_partial S th flow None base nb basis rs P F A) as (re' & im' & E' & H). rewrite E in E'. injection E' as <- <-.
  assert (W : forall (part : vec * vec -> vec), (forall e k, In e (concat rs) -> (k < length (rdofs e))%nat ->
     part (r_aero e th (state_at base e) (flow None (modal nb q basis))) k = sum nb (fun i => q i * part (r_aero e th (state_at base e) (flow None (basis i))) k)) ->
     sum nb (fun b => total (fun e => power (rdofs e) (part (r_aero e th (state_at base e) (flow None (basis b)))) (basis a)) (concat rs) * q b)
     = total (fun e => power (rdofs e) (part (r_aero e th (state_at base e) (flow None (modal nb q basis)))) (basis a)) (concat rs)).
  { intros part Lp. transitivity (sum nb (fun b => total (fun e => q b * power (rdofs e) (part (r_aero e th (state_at base e) (flow None (basis b)))) (basis a)) (concat rs))).
    { apply sum_ext. intros b Hb. rewrite total_scal. ring. }
    rewrite sum_total. apply total_ext. intros e He. unfold power.
    transitivity (sum nb (fun b => sum (length (rdofs e)) (fun k => basis a (nth k (rdofs e) O) * (q b * part (r_aero e th (state_at base e) (flow None (basis b))) k)))).
    { apply sum_ext. intros b Hb. rewrite <- sum_scal_l. apply sum_ext. intros. ring. }
    rewrite sum_swap. apply sum_ext. intros k Hk. rewrite sum_scal_l. now rewrite Lp. }
  split.
  - unfold work_re at 1. rewrite <- (W fst); [|intros e k He Hk; apply (L e k He Hk)]. apply sum_ext. intros b Hb. now rewrite (proj1 (H a b Ha Hb)).
  - unfold work_im at 1. rewrite <- (W snd); [|intros e k He Hk; apply (L e k He Hk)]. apply sum_ext. intros b Hb. now rewrite (proj2 (H a b Ha Hb)).
Qed.
(** No modes at all: the first of them is read. *)
Theorem C205_empty_refuted : forall S th flow p base basis rs, aero_matrix S th flow p base 0 basis rs = Fault OutOfBounds.
Proof. reflexivity. Qed.
(** For a parameter only the change of the flow counts: a factor of the force that depends on the parameter is not differentiated. *)
Definition panel : relem := mkRe [0%nat] (fun _ _ => mzero) none3 none2 none2 (fun _ _ _ => mzero) (fun _ _ _ => mzero) dnone3 dnone2 dnone2
  (fun th _ s => (fun k => th O * fst s k, fun k => th O * snd s k)).
Theorem C205_parameter_refuted : exists S th (flow : option nat -> vec -> vec * vec) basis rs re im,
  (forall e, In e (concat rs) -> fits S e) /\ admissible S (basis O) /\
  (forall d, flow (Some O) d = (zero, zero)) /\
  aero_matrix S th flow (Some O) None 1 basis rs = Ok (re, im) /\ re O O = 0 /\
  is_derive (fun t => work_re rs (at_ th O t) None (flow None (basis O)) (basis O)) (th O) 1.
Proof.
  exists (sys_of 1 (fun _ => None)), one_th, (fun p d => match p with None => (d, zero) | Some _ => (zero, zero) end), (fun _ _ => 1), [[panel]]. eexists _, _.
  split.
  { intros e [<-|[]]. split; [repeat constructor; cbn; tauto|]. split; [intros d [<-|[]]; cbn; lia|]. split; intros; discriminate. }
  split; [intros i r _ E; discriminate|]. split; [reflexivity|]. split; [reflexivity|]. split.
  - cbv -[Rplus Rmult IZR Ropp Rinv Rdiv Rminus]. ring.
  - apply (der_ext (fun t => t) _ _ 1); [|reflexivity|apply @is_derive_id]. intros t. cbv -[Rplus Rmult IZR Ropp Rinv Rdiv Rminus]. ring.
Qed.

(** ** C206 attaching and detaching *)
Definition free_for (o s a fo : nat) (w : world) : Prop :=
  w_ops w = None /\ w_solver w = None /\ o <> fo /\ o_busy w o = false /\ o_busy w fo = false /\ s_assembly w s = None /\ a_ops w a = None.
(** An object that is attached can be detached, and then flow solver, flow assembly and the operations of the flow are free again and
    the assembly object can be attached again to other element operations. *)
Theorem C206_cycle_partial : forall o s a fo w, free_for o s a fo w ->
  exists w1 w2, fsi_init o s a fo w = Ok w1 /\ fsi_clear w1 = Ok w2 /\
    w_ops w1 = Some o /\ o_busy w1 o = true /\ o_busy w1 fo = true /\ s_assembly w1 s = Some a /\ a_ops w1 a = Some fo /\
    w_ops w2 = None /\ w_solver w2 = None /\ o_busy w2 fo = false /\ s_assembly w2 s = None /\ a_ops w2 a = None /\
    (forall o', o' <> o -> o' <> fo -> o_busy w o' = false -> exists w3, fsi_init o' s a fo w2 = Ok w3).
Proof.
  intros o s a fo w (H1 & H2 & Ne & H3 & H4 & H5 & H6). unfold fsi_init. rewrite H2, H1. unfold set_elem_ops at 1. rewrite H3. cbn [negb assert_ bind fst snd].
  rewrite H5, H6. unfold set_elem_ops at 1. rewrite upd_other by auto. rewrite H4. cbn [negb assert_ bind fst snd].
  eexists _, _. split; [reflexivity|]. unfold fsi_clear. cbn -[upd]. rewrite !upd_same. cbn -[upd].
  split; [reflexivity|]. cbn -[upd]. rewrite !upd_same. rewrite (upd_other (upd (o_busy w) o true) fo true o) by auto. rewrite upd_same.
  repeat (split; [reflexivity|]). intros o' N1 N2 B. unfold set_elem_ops. cbn -[upd]. rewrite (upd_other _ fo false o') by auto. rewrite (upd_other _ fo true o') by auto.
  rewrite upd_other by auto. rewrite B. cbn -[upd]. rewrite (upd_other _ o' true fo) by auto. rewrite !upd_same. cbn -[upd]. eauto.
Qed.
(** The element operations themselves are left attached: the same set cannot be used again. *)
Theorem C206_again_refuted : forall o s a fo w, free_for o s a fo w -> forall s' a' fo' w1 w2,
  fsi_init o s a fo w = Ok w1 -> fsi_clear w1 = Ok w2 -> fsi_init o s' a' fo' w2 = Fault AssertFailed.
Proof.
  intros o s a fo w (H1 & H2 & Ne & H3 & H4 & H5 & H6) s' a' fo' w1 w2. unfold fsi_init at 1. rewrite H2, H1. unfold set_elem_ops at 1. rewrite H3. cbn [negb assert_ bind fst snd].
  rewrite H5, H6. unfold set_elem_ops at 1. rewrite upd_other by auto. rewrite H4. cbn [negb assert_ bind fst snd]. intros E. injection E as <-.
  unfold fsi_clear. cbn -[upd]. rewrite !upd_same. cbn -[upd]. intros E. injection E as <-. unfold fsi_init, set_elem_ops. cbn -[upd].
  rewrite (upd_other _ fo false o) by auto. rewrite (upd_other _ fo true o) by auto. rewrite upd_same. reflexivity.
Qed.
(** Detaching what is not attached dereferences a null pointer. *)
Theorem C206_detach_refuted : forall w, w_solver w = None -> fsi_clear w = Fault NullDeref.
Proof. intros w H. unfold fsi_clear. rewrite H. now destruct (w_assembly w). Qed.
Example C206_example : free_for 0 0 0 1 (mkW None None None (fun _ => false) (fun _ => None) (fun _ => None)).
Proof. repeat split. discriminate. Qed.

Print Assumptions C203_reduced_partial.
Print Assumptions C203_symmetric.
Print Assumptions C203_distribution.
Print Assumptions C203_total.
Print Assumptions C203_inadmissible_refuted.
Print Assumptions C203_hanging_refuted.
Print Assumptions C204_base_partial.
Print Assumptions C204_rest_partial.
Print Assumptions C204_missing.
Print Assumptions C204_load_refuted.
Print Assumptions C205_forces_partial.
Print Assumptions C205_generalised_partial.
Print Assumptions C205_empty_refuted.
Print Assumptions C205_parameter_refuted.
Print Assumptions C206_cycle_partial.
Print Assumptions C206_again_refuted.
Print Assumptions C206_detach_refuted.
