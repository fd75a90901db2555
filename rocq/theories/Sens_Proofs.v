From Coq Require Import Reals Lra.
From Coquelicot Require Import Coquelicot.
From Coq Require Import List Arith Bool Permutation Lia.
From Verif Require Import Base BaseLemmas Sens_Model Sens_Spec.
Import ListNotations.
Open Scope R_scope.

Lemma total_app {A} (f : A -> R) l m : total f (l ++ m) = total f l + total f m.
Proof. unfold total. now rewrite map_app, lsum_app. Qed.
Lemma total_perm {A} (f : A -> R) l m : Permutation l m -> total f l = total f m.
Proof. intros H; unfold total. apply lsum_perm. now apply Permutation_map. Qed.
Lemma total_ext {A} (f g : A -> R) l : (forall a, In a l -> f a = g a) -> total f l = total g l.
Proof.
  intros H; unfold total. f_equal. now apply map_ext_in.
Qed.
Lemma total_cons {A} (f : A -> R) a l : total f (a :: l) = f a + total f l.
Proof. reflexivity. Qed.
Lemma total_plus {A} (f g : A -> R) l : total (fun a => f a + g a) l = total f l + total g l.
Proof. induction l; rewrite ?total_cons; [cbv; ring|]. rewrite IHl. ring. Qed.
Lemma total_scal {A} c (f : A -> R) l : total (fun a => c * f a) l = c * total f l.
Proof. induction l; rewrite ?total_cons; [cbv; ring|]. rewrite IHl. ring. Qed.
Lemma total_opp {A} (f : A -> R) l : total (fun a => - f a) l = - total f l.
Proof. induction l; rewrite ?total_cons; [cbv; ring|]. rewrite IHl. ring. Qed.
Lemma total_0 {A} (f : A -> R) l : (forall a, In a l -> f a = 0) -> total f l = 0.
Proof.
  induction l; intros H; rewrite ?total_cons; [reflexivity|]. rewrite H, IHl; [ring| |now left].
  intros; apply H; now right.
Qed.
Lemma total_filter {A} (p : A -> bool) (f : A -> R) l :
  total f (filter p l) = total (fun a => if p a then f a else 0) l.
Proof.
  induction l as [|a l IH]; [reflexivity|]. cbn [filter]. rewrite total_cons.
  destruct (p a); rewrite ?total_cons, IH; ring.
Qed.
Lemma total_flat {A B} (f : B -> R) (g : A -> list B) l :
  total f (flat_map g l) = total (fun a => total f (g a)) l.
Proof. induction l as [|a l IH]; [reflexivity|]. cbn [flat_map]. now rewrite total_app, total_cons, IH. Qed.
Lemma total_swap {A B} (f : A -> B -> R) l m :
  total (fun a => total (fun b => f a b) m) l = total (fun b => total (fun a => f a b) l) m.
Proof.
  induction l as [|a l IH].
  - cbn. symmetry. apply total_0. reflexivity.
  - rewrite total_cons, IH. rewrite <- total_plus. apply total_ext. intros. now rewrite total_cons.
Qed.
Lemma total_sum {A} n (f : A -> nat -> R) l :
  total (fun a => sum n (f a)) l = sum n (fun i => total (fun a => f a i) l).
Proof.
  induction l as [|a l IH].
  - cbn. symmetry. apply sum_0. reflexivity.
  - rewrite total_cons, IH, <- sum_plus. apply sum_ext. intros. now rewrite total_cons.
Qed.

(** loops that add to the entries *)
Lemma fold_vec {A} (step : vec -> A -> vec) (c : A -> nat -> R) :
  (forall g a i, step g a i = g i + c a i) ->
  forall l g i, fold_left step l g i = g i + total (fun a => c a i) l.
Proof.
  intros H; induction l as [|a l IH]; intros g i; cbn [fold_left].
  - cbn. ring.
  - rewrite IH, H, total_cons. ring.
Qed.
Lemma fold_mat {A} (step : matrix -> A -> matrix) (c : A -> nat -> nat -> R) :
  (forall g a i j, step g a i j = g i j + c a i j) ->
  forall l g i j, fold_left step l g i j = g i j + total (fun a => c a i j) l.
Proof.
  intros H; induction l as [|a l IH]; intros g i j; cbn [fold_left].
  - cbn. ring.
  - rewrite IH, H, total_cons. ring.
Qed.
Lemma fold_num {A} (step : R -> A -> R) (c : A -> R) :
  (forall g a, step g a = g + c a) ->
  forall l g, fold_left step l g = g + total c l.
Proof.
  intros H; induction l as [|a l IH]; intros g; cbn [fold_left].
  - cbn. ring.
  - rewrite IH, H, total_cons. ring.
Qed.

Section S.
Variable (S : sys).
Implicit Types (ds : list nat) (v : vec).

(** the contribution of a local vector to global entry i *)
Definition ctr ds v (i : nat) : R := if constrained S i then 0 else part S ds v i.
Lemma add_vector_eq ds v g i : add_vector S ds v g i = g i + ctr ds v i.
Proof.
  unfold add_vector, ctr, part. destruct (constrained S i); [reflexivity|]. f_equal. apply sum_ext; intros; ring.
Qed.

Variable th : params.
Definition zif (b : bool) (x : R) : R := if b then x else 0.
Lemma res_elem_eq X g e i : res_elem S th X g e i =
  g i + zif (active S e) (ctr (edofs e) (e_res e th (gather (edofs e) X)) i).
Proof.
  unfold res_elem, active. destruct (diag S (subdom e)); cbn; [ring|]. apply add_vector_eq.
Qed.
Definition skipped (f : nat) (e : elem) : bool :=
  match param_dep S with Some d => negb (depends d e f) | None => false end.
Lemma ctr_ext ds v w i : (forall k, (k < length ds)%nat -> v k = w k) -> ctr ds v i = ctr ds w i.
Proof.
  intros H. unfold ctr, part. destruct (constrained S i); auto. apply sum_ext. intros; now rewrite H.
Qed.
Lemma sens_elem_eq f X g e i : sens_elem S th f X g e i =
  g i + zif (active S e && negb (skipped f e)) (ctr (edofs e) (dres_of S th f e (gather (edofs e) X)) i).
Proof.
  unfold sens_elem, active, skipped. destruct (diag S (subdom e)); cbn; [ring|].
  destruct (match param_dep S with Some d => negb (depends d e f) | None => false end); cbn; [ring|].
  rewrite add_vector_eq. f_equal. apply ctr_ext. intros k _. unfold dres_of.
  destruct (is_topology S f); cbn; ring.
Qed.
Lemma outd_elem_eq X g e i : outd_elem S th X g e i =
  g i + zif (counted S e) (ctr (edofs e) (e_qx e th (gather (edofs e) X)) i).
Proof.
  unfold outd_elem, counted, active. destruct (diag S (subdom e)); cbn; [ring|].
  destruct (q_here e); cbn; [apply add_vector_eq|ring].
Qed.
Lemma out_elem_eq X (g : R) e : out_elem S th X g e = g + zif (counted S e) (e_q e th (gather (edofs e) X)).
Proof.
  unfold out_elem, counted, active. destruct (diag S (subdom e)); cbn; [ring|].
  destruct (q_here e); cbn; ring.
Qed.
Definition oskipped (f : nat) (dX : option vec) (e : elem) : bool :=
  match param_dep S with
          | Some d => negb (depends d e f) &&
                      match dX with None => true | Some _ => override d end
          | None => false end.
Definition osol (dX : option vec) (ds : list nat) : vec :=
  match dX with Some d => gather ds d | None => zero end.
Lemma outs_elem_eq f X dX (g : R) e : outs_elem S th f X dX g e =
  g + zif (counted S e && negb (oskipped f dX e))
        (e_qp e th f (gather (edofs e) X) (osol dX (edofs e))).
Proof.
  unfold outs_elem, counted, active, oskipped. destruct (diag S (subdom e)); cbn; [ring|].
  match goal with |- context [if ?b then _ else _] => destruct b end; cbn.
  - rewrite andb_false_r. cbn. ring.
  - destruct (q_here e); cbn; try ring. destruct dX; reflexivity.
Qed.
Definition mctr ds (m : matrix) (i j : nat) : R :=
  if constrained S i
     then if existsb (Nat.eqb i) ds then (if (i =? j)%nat then 1 else - coef S i j) else 0
     else sum (length ds) (fun k => sum (length ds) (fun l =>
            coef S (dof ds k) i * m k l * coef S (dof ds l) j)).
Definition emat X (e : elem) : matrix :=
  if diag S (subdom e) then ident (/ 10 ^ 24) else e_jac e th (gather (edofs e) X).
Lemma jac_elem_eq X g e i j : jac_elem S th X g e i j = g i j + mctr (edofs e) (emat X e) i j.
Proof. unfold jac_elem, emat, mctr. destruct (diag S (subdom e)); reflexivity. Qed.

Lemma jacobian_eq X i j :
  jacobian S th X i j = total (fun e => mctr (edofs e) (emat X e) i j) (elements S).
Proof.
  unfold jacobian, elements. rewrite total_flat.
  rewrite (fold_mat _ (fun rk i j => total (fun e => mctr (edofs e) (emat X e) i j) (local rk))).
  - unfold mzero. ring.
  - intros g rk a b. rewrite (fold_mat _ (fun e i j => mctr (edofs e) (emat X e) i j)); auto.
    intros; apply jac_elem_eq.
Qed.
Lemma zif_total {A} (p : A -> bool) (f : A -> R) l :
  total (fun a => zif (p a) (f a)) l = total f (filter p l).
Proof. now rewrite total_filter. Qed.
Lemma output_eq X : calculate_output S th X = output_of S th X.
Proof.
  unfold calculate_output, output_of, elements. rewrite <- zif_total, total_flat.
  rewrite (fold_num _ (fun rk => total (fun e => zif (counted S e) (e_q e th (gather (edofs e) X))) (local rk))).
  - ring.
  - intros g rk. rewrite (fold_num _ (fun e => zif (counted S e) (e_q e th (gather (edofs e) X)))); auto.
    intros; apply out_elem_eq.
Qed.
Lemma outd_eq X i : calculate_output_derivative S th X i =
  total (fun e => ctr (edofs e) (e_qx e th (gather (edofs e) X)) i) (filter (counted S) (elements S)).
Proof.
  unfold calculate_output_derivative, elements. rewrite <- zif_total, total_flat.
  rewrite (fold_vec _ (fun rk i => total (fun e => zif (counted S e)
     (ctr (edofs e) (e_qx e th (gather (edofs e) X)) i)) (local rk))).
  - unfold zero; ring.
  - intros g rk a.
    rewrite (fold_vec _ (fun e i => zif (counted S e) (ctr (edofs e) (e_qx e th (gather (edofs e) X)) i))); auto.
    intros; apply outd_elem_eq.
Qed.
Lemma outs_eq f X dX : calculate_output_direct_sensitivity S th f X dX =
  total (fun e => e_qp e th f (gather (edofs e) X) (osol dX (edofs e)))
        (filter (fun e => counted S e && negb (oskipped f dX e)) (elements S)).
Proof.
  unfold calculate_output_direct_sensitivity, elements. rewrite <- zif_total, total_flat.
  rewrite (fold_num _ (fun rk => total (fun e => zif (counted S e && negb (oskipped f dX e))
     (e_qp e th f (gather (edofs e) X) (osol dX (edofs e)))) (local rk))).
  - ring.
  - intros g rk. rewrite (fold_num _ (fun e => zif (counted S e && negb (oskipped f dX e))
     (e_qp e th f (gather (edofs e) X) (osol dX (edofs e))))); auto.
    intros; apply outs_elem_eq.
Qed.

(** point loads *)
Definition own_ctr (rk : rank) v ds (i : nat) : R :=
  ctr ds (fun k => if owns (dof ds k) rk then - v k else 0) i.
Lemma load_node_ok rk v ds g : length ds = n_vars S ->
  exists g', load_node S rk v ds g = Ok g' /\ forall i, g' i = g i + own_ctr rk v ds i.
Proof.
  intros H. unfold load_node. rewrite H, Nat.eqb_refl. eexists; split; [reflexivity|].
  intros i. rewrite add_vector_eq. f_equal. apply ctr_ext. intros k _. unfold owns.
  destruct (Nat.ltb_spec (dof ds k) (first_dof rk)); destruct (Nat.leb_spec (end_dof rk) (dof ds k));
  destruct (Nat.leb_spec (first_dof rk) (dof ds k)); destruct (Nat.ltb_spec (dof ds k) (end_dof rk));
  cbn; try ring; lia.
Qed.
Lemma load_nodes_ok rk f ns : (forall nd ds, In (nd, ds) ns -> length ds = n_vars S) -> forall g,
  exists g', load_nodes S rk f ns g = Ok g' /\
    forall i, g' i = g i + total (fun nd => own_ctr rk (f (fst nd)) (snd nd) i) ns.
Proof.
  induction ns as [|[nd ds] t IH]; intros H g; cbn [load_nodes].
  - exists g; split; auto. intros; cbn; ring.
  - destruct (load_node_ok rk (f nd) ds g (H nd ds (or_introl eq_refl))) as (g1 & E & Q). rewrite E. cbn [bind].
    destruct (IH (fun a b I => H a b (or_intror I)) g1) as (g2 & E2 & Q2). exists g2; split; auto.
    intros i. rewrite Q2, Q, total_cons. cbn. ring.
Qed.
Lemma point_loads_ok rk f ls :
  (forall l nd ds, In l ls -> In (nd, ds) (p_nodes l) -> length ds = n_vars S) -> forall g,
  exists g', point_loads S rk f ls g = Ok g' /\
    forall i, g' i = g i + total (fun l => total (fun nd => own_ctr rk (f l (fst nd)) (snd nd) i) (p_nodes l)) ls.
Proof.
  induction ls as [|l t IH]; intros H g; cbn [point_loads].
  - exists g; split; auto. intros; cbn; ring.
  - destruct (load_nodes_ok rk (f l) (p_nodes l) (fun a b => H l a b (or_introl eq_refl)) g) as (g1 & E & Q).
    rewrite E. cbn [bind].
    destruct (IH (fun a b c I => H a b c (or_intror I)) g1) as (g2 & E2 & Q2). exists g2; split; auto.
    intros i. rewrite Q2, Q, total_cons. cbn. ring.
Qed.
Lemma over_ranks_ok (step : vec -> rank -> outcome vec) (c : rank -> nat -> R) :
  (forall g rk, exists g', step g rk = Ok g' /\ forall i, g' i = g i + c rk i) -> forall rs g,
  exists g', over_ranks step rs g = Ok g' /\ forall i, g' i = g i + total (fun rk => c rk i) rs.
Proof.
  intros H; induction rs as [|r t IH]; intros g; cbn [over_ranks].
  - exists g; split; auto. intros; cbn; ring.
  - destruct (H g r) as (g1 & E & Q). rewrite E; cbn [bind]. destruct (IH g1) as (g2 & E2 & Q2).
    exists g2; split; auto. intros i. rewrite Q2, Q, total_cons. ring.
Qed.
Lemma total_one {A} (p : A -> bool) l x : length (filter p l) = 1%nat ->
  total (fun a => if p a then x else 0) l = x.
Proof.
  intros H. rewrite <- total_filter. destruct (filter p l) as [|a [|b t]]; try discriminate. cbn. ring.
Qed.
Lemma own_total v ds i : owned_once S -> (forall d, In d ds -> (d < n S)%nat) ->
  total (fun rk => own_ctr rk v ds i) (ranks S) = - ctr ds v i.
Proof.
  intros O D. unfold own_ctr, ctr. destruct (constrained S i).
  - rewrite total_0; [ring|auto].
  - unfold part. rewrite total_sum, <- sum_opp. apply sum_ext. intros k Hk.
    rewrite total_scal.
    rewrite total_one; [ring|]. apply O, D. apply nth_In; auto.
Qed.
Definition cforces (f : pload -> nat -> vec) (i : nat) : R := if constrained S i then 0 else forces S f i.
Lemma loads_total f i : owned_once S -> well_formed S ->
  total (fun rk => total (fun l => total (fun nd => own_ctr rk (f l (fst nd)) (snd nd) i) (p_nodes l)) (loads S))
    (ranks S) = - cforces f i.
Proof.
  intros O (_ & W & _). rewrite total_swap.
  transitivity (total (fun l => total (fun nd => - ctr (snd nd) (f l (fst nd)) i) (p_nodes l)) (loads S)).
  - apply total_ext. intros l Hl. rewrite total_swap. apply total_ext. intros [nd ds] Hn.
    apply own_total; auto. intros d Hd. destruct (W l nd ds Hl Hn) as [_ L]. auto.
  - unfold cforces, forces, ctr. destruct (constrained S i).
    + rewrite Ropp_0. apply total_0. intros. apply total_0. intros. ring.
    + rewrite <- total_opp. apply total_ext. intros. rewrite <- total_opp. reflexivity.
Qed.
Lemma loads_sized : well_formed S ->
  forall l nd ds, In l (loads S) -> In (nd, ds) (p_nodes l) -> length ds = n_vars S.
Proof. intros (_ & W & _) l nd ds A B. apply (W l nd ds A B). Qed.

Lemma residual_ok X : owned_once S -> well_formed S ->
  exists g, residual S th X = Ok g /\
    forall i, g i = (if constrained S i then 0 else residual_of S th X i).
Proof.
  intros O W. unfold residual.
  destruct (over_ranks_ok (res_rank S th X)
    (fun rk i => total (fun e => zif (active S e) (ctr (edofs e) (e_res e th (gather (edofs e) X)) i)) (local rk)
       + total (fun l => total (fun nd => own_ctr rk (p_load l th (fst nd)) (snd nd) i) (p_nodes l)) (loads S)))
    with (rs := ranks S) (g := zero) as (g & E & Q).
  - intros g rk. unfold res_rank.
    destruct (point_loads_ok rk (fun l => p_load l th) (loads S) (loads_sized W)
      (fold_left (res_elem S th X) (local rk) g)) as (g' & E & Q). exists g'; split; auto.
    intros i. rewrite Q.
    rewrite (fold_vec _ (fun e i => zif (active S e) (ctr (edofs e) (e_res e th (gather (edofs e) X)) i)))
      by (intros; apply res_elem_eq). ring.
  - exists g; split; auto. intros i. rewrite Q, total_plus.
    rewrite (loads_total (fun l => p_load l th)) by auto.
    rewrite <- (total_flat (fun e => zif (active S e) (ctr (edofs e) (e_res e th (gather (edofs e) X)) i)) local).
    rewrite zif_total. unfold cforces, residual_of, ctr, zero, elements. destruct (constrained S i).
    + rewrite total_0; [ring|auto].
    + ring.
Qed.
Definition kept (f : nat) (e : elem) : bool := active S e && negb (skipped f e).
Lemma sensitivity_ok' f X : owned_once S -> well_formed S ->
  exists g, sensitivity_assemble S th f X = Ok g /\
    forall i, g i = (if constrained S i then 0 else
      total (fun e => part S (edofs e) (dres_of S th f e (gather (edofs e) X)) i)
        (filter (kept f) (elements S))
      - forces S (fun l => p_dload l th f) i).
Proof.
  intros O W. unfold sensitivity_assemble.
  destruct (over_ranks_ok (sens_rank S th f X)
    (fun rk i => total (fun e => zif (kept f e) (ctr (edofs e) (dres_of S th f e (gather (edofs e) X)) i)) (local rk)
       + total (fun l => total (fun nd => own_ctr rk (p_dload l th f (fst nd)) (snd nd) i) (p_nodes l)) (loads S)))
    with (rs := ranks S) (g := zero) as (g & E & Q).
  - intros g rk. unfold sens_rank.
    destruct (point_loads_ok rk (fun l => p_dload l th f) (loads S) (loads_sized W)
      (fold_left (sens_elem S th f X) (local rk) g)) as (g' & E & Q). exists g'; split; auto.
    intros i. rewrite Q.
    rewrite (fold_vec _ (fun e i => zif (kept f e) (ctr (edofs e) (dres_of S th f e (gather (edofs e) X)) i)))
      by (intros; apply sens_elem_eq). ring.
  - exists g; split; auto. intros i. rewrite Q, total_plus.
    rewrite (loads_total (fun l => p_dload l th f)) by auto.
    rewrite <- (total_flat (fun e => zif (kept f e) (ctr (edofs e) (dres_of S th f e (gather (edofs e) X)) i)) local).
    rewrite zif_total. unfold cforces, ctr, zero, elements. destruct (constrained S i).
    + rewrite total_0; [ring|auto].
    + ring.
Qed.
Lemma sensitivity_ok f X : owned_once S -> well_formed S -> dependence_sound S th f X ->
  exists g, sensitivity_assemble S th f X = Ok g /\
    forall i, g i = (if constrained S i then 0 else dresidual_of S th f X i).
Proof.
  intros O W D. destruct (sensitivity_ok' f X O W) as (g & E & Q). exists g; split; auto. intros i.
  rewrite Q. destruct (constrained S i); auto. unfold dresidual_of. f_equal.
  rewrite !total_filter. apply total_ext. intros e He. unfold kept.
  destruct (active S e); cbn [andb]; auto. unfold skipped.
  destruct (param_dep S) as [d|] eqn:Ed; auto. destruct (depends d e f) eqn:Df; auto. cbn.
  destruct (D d Ed e He Df) as [D1 _]. unfold part. symmetry. apply sum_0. intros k Hk. rewrite D1; auto. ring.
Qed.

(** ** dot products and constraints *)
Lemma lsum_map_total {A} (f : A -> R) l : lsum (map f l) = total f l.
Proof. reflexivity. Qed.
Lemma sum_total {A} m (f : nat -> A -> R) l :
  sum m (fun i => total (f i) l) = total (fun a => sum m (fun i => f i a)) l.
Proof. symmetry. apply (total_sum m (fun a i => f i a)). Qed.
Lemma coef_dot x d : well_formed S -> (d < n S)%nat ->
  sum (n S) (fun i => if constrained S i then 0 else coef S d i * x i) = enforce S x d.
Proof.
  intros (_ & _ & W) Hd. unfold enforce, coef. destruct (row S d) as [r|] eqn:Er.
  - transitivity (sum (n S) (fun i => total (fun e => if (fst e =? i)%nat then snd e * x i else 0) r)).
    + apply sum_ext. intros i Hi. rewrite lsum_map_total. unfold constrained.
      destruct (row S i) as [ri|] eqn:Ei.
      * symmetry. apply total_0. intros [j c] Hj. cbn. destruct (Nat.eqb_spec j i); auto. subst.
        destruct (W d r i c Er Hj) as [_ ?]; congruence.
      * rewrite Rmult_comm, <- total_scal. apply total_ext. intros [j c] _; cbn. destruct (j =? i)%nat; ring.
    + rewrite sum_total, lsum_map_total. apply total_ext. intros [j c] Hj. cbn.
      destruct (W d r j c Er Hj) as [Hl _].
      rewrite (sum_single (n S) j); auto.
      * now rewrite Nat.eqb_refl.
      * intros k _ Hk. destruct (Nat.eqb_spec j k); congruence || auto.
  - rewrite (sum_single (n S) d); auto.
    + unfold constrained. rewrite Er, Nat.eqb_refl. ring.
    + intros k _ Hk. destruct (constrained S k); auto. destruct (Nat.eqb_spec d k); [congruence|ring].
Qed.
Lemma dot_ctr x ds v : well_formed S -> (forall d, In d ds -> (d < n S)%nat) ->
  dot (n S) x (ctr ds v) = sum (length ds) (fun k => v k * enforce S x (dof ds k)).
Proof.
  intros W D. unfold dot.
  transitivity (sum (n S) (fun i => sum (length ds) (fun k => v k * (if constrained S i then 0 else coef S (dof ds k) i * x i)))).
  - apply sum_ext. intros i _. unfold ctr, part. destruct (constrained S i).
    + rewrite (sum_0 (length ds)) by (intros; ring). ring.
    + rewrite <- sum_scal_l. apply sum_ext. intros; ring.
  - rewrite sum_swap. apply sum_ext. intros k Hk. rewrite sum_scal_l. f_equal.
    apply coef_dot; auto. apply D, nth_In; auto.
Qed.
Lemma dot_ext m a b c d : (forall i, (i < m)%nat -> a i * b i = c i * d i) -> dot m a b = dot m c d.
Proof. intros H. unfold dot. apply sum_ext. auto. Qed.
Lemma dot_total {A} m x (f : A -> vec) l :
  dot m x (fun i => total (fun a => f a i) l) = total (fun a => dot m x (f a)) l.
Proof.
  unfold dot. rewrite total_sum. apply sum_ext. intros. now rewrite total_scal.
Qed.
(** derivative of the output in a direction *)
Lemma dot_outd X x : well_formed S ->
  dot (n S) x (calculate_output_derivative S th X) =
  total (fun e => sum (length (edofs e)) (fun k => e_qx e th (gather (edofs e) X) k * enforce S x (dof (edofs e) k)))
    (filter (counted S) (elements S)).
Proof.
  intros W. rewrite (dot_ext _ _ _ x (fun i => total (fun e => ctr (edofs e) (e_qx e th (gather (edofs e) X)) i)
     (filter (counted S) (elements S)))).
  2: intros; now rewrite outd_eq.
  rewrite dot_total. apply total_ext. intros e He. apply dot_ctr; auto.
  apply filter_In in He. intros d Hd. now apply (proj1 W e).
Qed.
Lemma sens_total f X x : dependence_sound S th f X -> no_override S ->
  (forall e, In e (elements S) -> output_consistent th f e (gather (edofs e) X)) ->
  calculate_output_direct_sensitivity S th f X (Some x) =
  calculate_output_direct_sensitivity S th f X None +
  total (fun e => sum (length (edofs e)) (fun k => e_qx e th (gather (edofs e) X) k * x (dof (edofs e) k)))
    (filter (counted S) (elements S)).
Proof.
  intros D NO OC. rewrite !outs_eq, !total_filter, <- total_plus. apply total_ext. intros e He.
  destruct (counted S e); cbn [andb]; [|ring]. unfold oskipped.
  specialize (OC e He (gather (edofs e) x)).
  destruct (param_dep S) as [d|] eqn:Ed.
  - rewrite (NO d Ed). rewrite andb_false_r. cbn [negb osol]. rewrite OC.
    destruct (depends d e f) eqn:Df; cbn [negb andb].
    + reflexivity.
    + destruct (D d Ed e He Df) as [_ D2]. rewrite D2. unfold gather. ring.
  - cbn [negb osol]. exact OC.
Qed.
End S.
