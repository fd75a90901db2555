(** Lemmas for the reduction. *)
From Coq Require Import Reals.
From Coquelicot Require Import Coquelicot.
From Coq Require Import List Arith Bool Lia Lra FunctionalExtensionality.
From Verif Require Import Base BaseLemmas Sens_Model Sens_Spec Sens_Proofs Sens_Proofs2 Rom_Model Rom_Spec.
Import ListNotations.
Open Scope R_scope.

(** ** sums over the dofs of an element *)
Lemma delta_sum ds (g : vec) d : NoDup ds -> In d ds ->
  sum (length ds) (fun l => (if (d =? dof ds l)%nat then 1 else 0) * g (dof ds l)) = g d.
Proof.
  intros N I. destruct (In_nth ds d O I) as (k & Hk & E).
  rewrite (sum_single _ k); auto.
  - unfold dof. rewrite E, Nat.eqb_refl. ring.
  - intros l Hl Ne. unfold dof. destruct (Nat.eqb_spec d (nth l ds O)) as [Q|]; [|ring]. exfalso. apply Ne.
    rewrite <- E in Q. symmetry. exact (proj1 (NoDup_nth ds O) N k l Hk Hl Q).
Qed.
Section Local.
Variable (S : sys) (e : relem).
Hypothesis F : fits S e.
Let ds := rdofs e.
Lemma dof_in k : (k < length ds)%nat -> In (dof ds k) ds.
Proof. intros. now apply nth_In. Qed.
Lemma coef_local (y : vec) d : In d ds -> admissible S y -> sum (length ds) (fun l => coef S d (dof ds l) * y (dof ds l)) = y d.
Proof.
  destruct F as (N & Lt & Ins & Res). intros I A. unfold coef. destruct (row S d) as [r|] eqn:E; [|now apply delta_sum].
  rewrite (A d r); auto. change (lsum (map (fun e0 => snd e0 * y (fst e0)) r)) with (total (fun e0 => snd e0 * y (fst e0)) r).
  transitivity (sum (length ds) (fun l => total (fun e0 => snd e0 * ((if (fst e0 =? dof ds l)%nat then 1 else 0) * y (dof ds l))) r)).
  - apply sum_ext. intros l Hl. rewrite Rmult_comm. change (lsum (map ?f r)) with (total f r). rewrite <- total_scal.
    apply total_ext. intros [j c] _. cbn. destruct (j =? dof ds l)%nat; ring.
  - rewrite sum_total. apply total_ext. intros [j c] H. cbn. rewrite sum_scal_l. f_equal. apply delta_sum; auto. exact (Ins d r j c I E H).
Qed.
Lemma coef_free d i : In d ds -> constrained S i = true -> coef S d i = 0.
Proof.
  destruct F as (N & Lt & Ins & Res). intros I C. unfold coef. destruct (row S d) as [r|] eqn:E.
  - apply total_0. intros [j c] H. cbn. destruct (Nat.eqb_spec j i) as [->|]; auto. unfold constrained in C. rewrite (Res d r i c I E H) in C. discriminate.
  - destruct (Nat.eqb_spec d i) as [->|]; auto. unfold constrained in C. rewrite E in C. discriminate.
Qed.
(** the transformed rows of a constrained dof see nothing of an admissible vector *)
Lemma row_zero (y : vec) i : In i ds -> admissible S y -> constrained S i = true ->
  sum (length ds) (fun l => (if (i =? dof ds l)%nat then 1 else - coef S i (dof ds l)) * y (dof ds l)) = 0.
Proof.
  intros I A C. transitivity (sum (length ds) (fun l => (if (i =? dof ds l)%nat then 1 else 0) * y (dof ds l))
     - sum (length ds) (fun l => coef S i (dof ds l) * y (dof ds l))).
  - rewrite <- sum_minus. apply sum_ext. intros l Hl. destruct (Nat.eqb_spec i (dof ds l)) as [Q|]; [|ring].
    rewrite <- Q, (coef_free i i I C). ring.
  - rewrite delta_sum, coef_local; auto; [ring|]. apply F.
Qed.
Lemma free_sum (x : vec) a : (a < length ds)%nat -> admissible S x ->
  sum (length ds) (fun k => if constrained S (dof ds k) then 0 else x (dof ds k) * coef S (dof ds a) (dof ds k)) = x (dof ds a).
Proof.
  intros Ha A. rewrite <- (coef_local x (dof ds a)); auto; [|now apply dof_in]. apply sum_ext. intros k Hk.
  destruct (constrained S (dof ds k)) eqn:C; [|ring]. rewrite (coef_free _ _ (dof_in a Ha) C). ring.
Qed.
Lemma reached_nil : reached S ds = [].
Proof.
  unfold reached. destruct F as (N & Lt & Ins & Res). match goal with |- nodup _ ?l = [] => assert (Z : l = []) end.
  { apply incl_l_nil. intros j Hj. apply filter_In in Hj. destruct Hj as [Hj Q]. exfalso. apply in_flat_map in Hj. destruct Hj as (d & Hd & Hj).
    destruct (row S d) as [r|] eqn:E; [|destruct Hj]. apply in_map_iff in Hj. destruct Hj as ([j' c] & <- & Hj). cbn in *.
    assert (I := Ins d r j' c Hd E Hj). assert (X : existsb (Nat.eqb j') (rdofs e) = true) by (apply existsb_exists; exists j'; split; auto; apply Nat.eqb_refl).
    fold ds in X. rewrite X in Q. discriminate. }
  now rewrite Z.
Qed.
Lemma constrain_size m : length (fst (constrain_matrix S ds m)) = length ds.
Proof. unfold constrain_matrix. destruct (existsb _ ds); auto. cbn. now rewrite reached_nil, app_nil_r. Qed.
Lemma constrain_vsize v : fst (constrain_vector S ds v) = ds.
Proof. unfold constrain_vector. destruct (existsb _ ds); auto. cbn. now rewrite reached_nil, app_nil_r. Qed.
Lemma constrain_form m x y : admissible S x -> admissible S y ->
  sum (length ds) (fun k => sum (length ds) (fun l => x (dof ds k) * snd (constrain_matrix S ds m) k l * y (dof ds l))) = form ds m x y.
Proof.
  intros Ax Ay. unfold constrain_matrix. destruct (existsb _ ds); [|reflexivity]. cbn [snd]. rewrite reached_nil, app_nil_r.
  transitivity (sum (length ds) (fun k => if constrained S (dof ds k) then 0 else
     x (dof ds k) * sum (length ds) (fun a => coef S (dof ds a) (dof ds k) * sum (length ds) (fun b => m a b * y (dof ds b))))).
  - apply sum_ext. intros k Hk. destruct (constrained S (dof ds k)) eqn:C.
    + transitivity (x (dof ds k) * sum (length ds) (fun l => (if (dof ds k =? dof ds l)%nat then 1 else - coef S (dof ds k) (dof ds l)) * y (dof ds l))).
      * rewrite <- sum_scal_l. apply sum_ext. intros. ring.
      * rewrite row_zero; auto; [ring|now apply dof_in].
    + transitivity (x (dof ds k) * sum (length ds) (fun l => sum (length ds) (fun a => sum (length ds) (fun b =>
         coef S (dof ds a) (dof ds k) * m a b * coef S (dof ds b) (dof ds l))) * y (dof ds l))).
      { rewrite <- sum_scal_l. apply sum_ext. intros. ring. }
      f_equal.
      transitivity (sum (length ds) (fun l => sum (length ds) (fun a => coef S (dof ds a) (dof ds k) * sum (length ds) (fun b =>
         m a b * (coef S (dof ds b) (dof ds l) * y (dof ds l)))))).
      { apply sum_ext. intros l Hl. rewrite <- sum_scal_r. apply sum_ext. intros a Ha. rewrite <- sum_scal_r, <- sum_scal_l. apply sum_ext. intros. ring. }
      rewrite sum_swap. apply sum_ext. intros a Ha. rewrite sum_scal_l. f_equal. rewrite sum_swap. apply sum_ext. intros b Hb.
      rewrite sum_scal_l. f_equal. apply coef_local; auto. now apply dof_in.
  - transitivity (sum (length ds) (fun k => sum (length ds) (fun a => (if constrained S (dof ds k) then 0 else x (dof ds k) * coef S (dof ds a) (dof ds k))
       * sum (length ds) (fun b => m a b * y (dof ds b))))).
    { apply sum_ext. intros k Hk. destruct (constrained S (dof ds k)).
      - rewrite sum_0; auto. intros; ring.
      - rewrite <- sum_scal_l. apply sum_ext. intros. ring. }
    rewrite sum_swap. unfold form. apply sum_ext. intros a Ha. rewrite sum_scal_r, free_sum by auto. rewrite <- sum_scal_l.
    apply sum_ext. intros. unfold dof. ring.
Qed.
Lemma constrain_power v x : admissible S x ->
  sum (length ds) (fun k => x (dof ds k) * snd (constrain_vector S ds v) k) = power ds v x.
Proof.
  intros A. unfold constrain_vector. destruct (existsb _ ds); [|reflexivity]. cbn [snd]. rewrite reached_nil, app_nil_r.
  transitivity (sum (length ds) (fun k => sum (length ds) (fun a => (if constrained S (dof ds k) then 0 else x (dof ds k) * coef S (dof ds a) (dof ds k)) * v a))).
  { apply sum_ext. intros k Hk. destruct (constrained S (dof ds k)).
    - rewrite sum_0 by (intros; ring). ring.
    - rewrite <- sum_scal_l. apply sum_ext. intros. ring. }
  rewrite sum_swap. unfold power. apply sum_ext. intros a Ha. rewrite sum_scal_r, free_sum by auto. reflexivity.
Qed.
End Local.
(** the list is extended unless every constraint stays inside *)
Lemma reached_iff S ds : length (ds ++ reached S ds) = length ds <->
  forall d r j c, In d ds -> row S d = Some r -> In (j, c) r -> In j ds.
Proof.
  rewrite app_length. split.
  - intros H d r j c Hd E Hj. assert (Z : reached S ds = []) by (destruct (reached S ds); auto; cbn in H; lia).
    destruct (in_dec Nat.eq_dec j ds) as [|N]; auto. exfalso.
    assert (X : In j (reached S ds)).
    { unfold reached. apply nodup_In, filter_In. split.
      - apply in_flat_map. exists d. split; auto. rewrite E. apply in_map_iff. now exists (j, c).
      - destruct (existsb (Nat.eqb j) ds) eqn:Q; auto. apply existsb_exists in Q. destruct Q as (j' & I & Q). apply Nat.eqb_eq in Q. subst. contradiction. }
    rewrite Z in X. destruct X.
  - intros H. assert (Z : reached S ds = []); [|rewrite Z; cbn; lia]. unfold reached. match goal with |- nodup _ ?l = [] => assert (Z : l = []) end.
    { apply incl_l_nil. intros j Hj. apply filter_In in Hj. destruct Hj as [Hj Q]. exfalso. apply in_flat_map in Hj. destruct Hj as (d & Hd & Hj).
      destruct (row S d) as [r|] eqn:E; [|destruct Hj]. apply in_map_iff in Hj. destruct Hj as ([j' c] & <- & Hj). cbn in *.
      assert (I := H d r j' c Hd E Hj). assert (X : existsb (Nat.eqb j') ds = true) by (apply existsb_exists; exists j'; split; auto; apply Nat.eqb_refl).
      rewrite X in Q. discriminate. }
    now rewrite Z.
Qed.

(** ** the loops *)
Definition table (keys : list qty) (g : qty -> matrix) : list (qty * matrix) := map (fun q => (q, g q)) keys.
Lemma each_add (K : qty -> outcome matrix) (k : qty -> matrix) keys g : (forall q, In q keys -> K q = Ok (k q)) ->
  each (fun q a => p <- K q ;; Ok (madd a p)) (table keys g) = Ok (table keys (fun q => madd (g q) (k q))).
Proof.
  induction keys as [|q t IH]; intros H; [reflexivity|]. cbn. rewrite H by now left. cbn.
  change (map (fun q => (q, g q)) t) with (table t g). rewrite IH by (intros; apply H; now right). reflexivity.
Qed.
Lemma each_fst (step : qty -> matrix -> outcome matrix) l l' : each step l = Ok l' -> map fst l' = map fst l.
Proof.
  revert l'. induction l as [|[q m] t IH]; cbn; intros l' E; [now injection E as <-|].
  destruct (step q m); [|discriminate]. cbn in E. destruct (each step t) as [t'|]; [|discriminate]. injection E as <-. cbn. f_equal. now apply IH.
Qed.
Lemma each_inv (K : qty -> outcome matrix) l l' : each (fun q a => p <- K q ;; Ok (madd a p)) l = Ok l' ->
  forall q, In q (map fst l) -> exists p, K q = Ok p.
Proof.
  revert l'. induction l as [|[q m] t IH]; cbn; intros l' E q' H; [destruct H|].
  destruct (K q) as [p|] eqn:Q; [|discriminate]. cbn in E. destruct (each _ t) as [t'|] eqn:T; [|discriminate].
  destruct H as [<-|H]; [eauto|]. exact (IH t' eq_refl q' H).
Qed.
Lemma for_table (K : relem -> qty -> outcome matrix) (k : relem -> qty -> matrix) keys es : forall g,
  (forall e q, In e es -> In q keys -> K e q = Ok (k e q)) ->
  for_elems (fun e acc => each (fun q a => p <- K e q ;; Ok (madd a p)) acc) es (table keys g)
  = Ok (table keys (fun q a b => g q a b + total (fun e => k e q a b) es)).
Proof.
  induction es as [|e t IH]; intros g H; cbn [for_elems].
  - do 2 f_equal. apply functional_extensionality; intros q. apply functional_extensionality; intros a. apply functional_extensionality; intros b.
    unfold total. cbn. ring.
  - rewrite (each_add (K e) (k e)) by (intros; apply H; auto; now left). cbn [bind].
    rewrite IH by (intros; apply H; auto; now right). do 2 f_equal.
    apply functional_extensionality; intros q. apply functional_extensionality; intros a. apply functional_extensionality; intros b.
    rewrite total_cons. unfold madd. ring.
Qed.
Lemma table_add keys g h : add_all (table keys g) (table keys h) = table keys (fun q => madd (g q) (h q)).
Proof. unfold add_all, table. induction keys as [|q t IH]; [reflexivity|]. cbn. f_equal. exact IH. Qed.
Lemma processes_table (local : list relem -> outcome (list (qty * matrix))) keys (k : relem -> qty -> matrix) rs :
  (forall es, In es rs -> local es = Ok (table keys (fun q a b => total (fun e => k e q a b) es))) ->
  over_processes local add_all (table keys (fun _ => mzero)) rs
  = Ok (table keys (fun q a b => total (fun e => k e q a b) (concat rs))).
Proof.
  induction rs as [|es t IH]; intros H; [reflexivity|]. cbn [over_processes]. rewrite H by now left. cbn [bind].
  rewrite IH by (intros; apply H; now right). cbn [bind]. rewrite table_add. do 2 f_equal.
  apply functional_extensionality; intros q. apply functional_extensionality; intros a. apply functional_extensionality; intros b.
  unfold madd. cbn [concat]. now rewrite total_app.
Qed.
Lemma in_table keys g q M : In (q, M) (table keys g) -> In q keys /\ M = g q.
Proof. intros H. apply in_map_iff in H. destruct H as (q' & E & I). injection E as -> <-. auto. Qed.
Lemma table_fst keys g : map fst (table keys g) = keys.
Proof. unfold table. rewrite map_map. cbn. apply map_id. Qed.

(** ** one element *)
Section One.
Variables (S : sys) (th : params).
Definition elem_red (basis : nat -> vec) (e : relem) (om : outcome matrix) : outcome matrix :=
  m <- om ;; let '(ds', m') := constrain_matrix S (rdofs e) m in project basis (rdofs e) (length ds') m'.
Definition red_value (basis : nat -> vec) (e : relem) (m : matrix) : matrix := fun a b =>
  sum (length (rdofs e)) (fun k => sum (length (rdofs e)) (fun l =>
    basis_mat basis (rdofs e) k a * snd (constrain_matrix S (rdofs e) m) k l * basis_mat basis (rdofs e) l b)).
Lemma elem_red_ok basis e m : fits S e -> elem_red basis e (Ok m) = Ok (red_value basis e m).
Proof.
  intros F. unfold elem_red, red_value. cbn [bind]. assert (Z := constrain_size S e F m). destruct (constrain_matrix S (rdofs e) m) as [ds' m'].
  cbn in *. unfold project. rewrite Z, Nat.eqb_refl. reflexivity.
Qed.
Lemma red_form basis e m a b : fits S e -> admissible S (basis a) -> admissible S (basis b) ->
  red_value basis e m a b = form (rdofs e) m (basis a) (basis b).
Proof. intros F A B. unfold red_value, basis_mat. now apply constrain_form. Qed.
Lemma reduce_elem_eq base basis e : reduce_elem S th base basis e =
  each (fun q a => p <- elem_red basis e (elem_matrix q th (at_base base (rdofs e)) e) ;; Ok (madd a p)).
Proof.
  apply functional_extensionality. intros acc. unfold reduce_elem. f_equal. apply functional_extensionality; intros q. apply functional_extensionality; intros g. unfold elem_red.
  destruct (elem_matrix _ _ _ _); [|reflexivity]. cbn. destruct (constrain_matrix _ _ _). reflexivity.
Qed.
Lemma at_base_state base e : at_base base (rdofs e) = state_at base e.
Proof. now destruct base. Qed.
Lemma matrix_tangent q x e : is_matrix q -> elem_matrix q th x e = Ok (tangent q th x e).
Proof. intros [E|[E|E]]; rewrite E; reflexivity. Qed.
End One.
