From Coq Require Import Reals.
From Coquelicot Require Import Coquelicot.
From Coq Require Import List Arith Bool Lra Lia Permutation.
From Verif Require Import Base BaseLemmas RBool Sens_Model Sens_Spec Sens_Proofs Sens_Proofs2 Lna_Model Lna_Spec Lna_Proofs Rom_Model Rom_Proofs Lei_Model Lei_Spec Lei_Proofs Bck_Model Bck_Spec.
Import ListNotations.
Open Scope R_scope.

Lemma bcalc_tangent e th lam X k l : bcalc e th lam (gather (be_dofs e) X) k l = tangent th lam X e k l.
Proof. unfold bcalc, mat_plus, mzero, tangent, gather, dof. ring. Qed.
Lemma bdcalc_rate e th lam f X dX k l : bdcalc e th lam f (gather (be_dofs e) X) (gather (be_dofs e) dX) k l = tangent_rate th lam f X dX e k l.
Proof. unfold bdcalc, mat_plus, mzero, tangent_rate, gather, dof. ring. Qed.
Lemma mctr_ext C ds m m' i j : (forall k l, m k l = m' k l) -> mctr C ds m i j = mctr C ds m' i j.
Proof. intros H. unfold mctr. destruct (constrained C i); auto. apply sum_ext. intros k _. apply sum_ext. intros l _. now rewrite H. Qed.
Lemma reached_none C es : bmesh_ok C es -> forall e, In e es -> (length (reached C (be_dofs e)) =? 0)%nat = true.
Proof.
  intros (K1 & K2 & K3) e He. pose proof (proj2 (reached_iff C (be_dofs e)) (fun d r j c => K3 e d r j c He)) as L. rewrite app_length in L. apply Nat.eqb_eq. lia.
Qed.
Lemma local_ext ds m m' x y : (forall k l, m k l = m' k l) -> local_form ds m x y = local_form ds m' x y.
Proof. intros H. unfold local_form. apply sum_ext. intros k _. apply sum_ext. intros l _. now rewrite H. Qed.
Lemma fold_form C es (M : belem -> matrix) g x y : bmesh_ok C es -> admissible C x -> admissible C y ->
  bilinear (n C) (fold_left (fun g e => add_matrix C (be_dofs e) (M e) g) es g) x y = bilinear (n C) g x y + total (fun e => local_form (be_dofs e) (M e) x y) es.
Proof.
  intros (K1 & K2 & _) Ax Ay. revert g. induction es as [|e es IH]; intros g; cbn [fold_left]; [unfold total; cbn; ring|].
  rewrite IH by (intros e' d He; apply K1; now right). rewrite total_cons, (bilinear_ext _ _ (fun i j => g i j + mctr C (be_dofs e) (M e) i j)) by (intros; apply add_mat_eq).
  rewrite bilinear_plus, (form_adm C K2); auto; [ring|]. intros d Hd. exact (K1 e d (or_introl eq_refl) Hd).
Qed.
Lemma Ropp_sum_local m (g : nat -> nat -> R) : - sum m (fun k => sum m (fun l => g k l)) = sum m (fun k => sum m (fun l => - g k l)).
Proof. replace (- sum m (fun k => sum m (fun l => g k l))) with (-1 * sum m (fun k => sum m (fun l => g k l))) by ring. rewrite <- sum_scal_l. apply sum_ext. intros k _. rewrite <- sum_scal_l. apply sum_ext. intros; ring. Qed.
Lemma bilinear_quadratic m M x : quadratic m M x = bilinear m M x x.
Proof. unfold quadratic, bilinear. apply sum_ext. intros i _. rewrite <- sum_scal_l. apply sum_ext. intros j _. ring. Qed.

Section Bck.
Variables (checked : bool) (C : sys) (th : params) (D : bset) (x1 x2 : vec).
Definition second (e : belem) : matrix := fun k l => (if bs_lin D then tangent th (bs_l1 D) x1 e k l else 0) - tangent th (bs_l2 D) x2 e k l.
Definition addA (A : matrix) e : matrix := add_matrix C (be_dofs e) (bcalc e th (bs_l1 D) (gather (be_dofs e) x1)) A.
Definition matB e : matrix := let b := fun k l => -1 * bcalc e th (bs_l2 D) (gather (be_dofs e) x2) k l in
  if bs_lin D then mat_plus b (bcalc e th (bs_l1 D) (gather (be_dofs e) x1)) else b.
Definition addB (B : matrix) e : matrix := add_matrix C (be_dofs e) (matB e) B.
Lemma matB_second e k l : matB e k l = second e k l.
Proof. unfold matB, second. destruct (bs_lin D); unfold mat_plus; rewrite !bcalc_tangent; ring. Qed.
Lemma fault_step es f : fold_left (bstep checked C th D x1 x2) es (Fault f) = Fault f.
Proof. induction es; auto. Qed.
Lemma fault_rank rks f : fold_left (brank checked C th D x1 x2) rks (Fault f) = Fault f.
Proof. induction rks; auto. Qed.
Lemma run_rank es : forall h lost load A B, bmesh_ok C es -> (checked = false \/ es = [] \/ h = false /\ length es = 1%nat) ->
  fold_left (bstep checked C th D x1 x2) es (Ok (mkBp h lost load A B)) =
  Ok (mkBp (h || negb (length es =? 0)%nat) (lost + (length es - (if h then 0 else 1))) (if (length es =? 0)%nat then load else bs_l2 D)
        (fold_left addA es A) (fold_left addB es B)).
Proof.
  induction es as [|e es IH]; intros h lost load A B K H.
  - cbn. rewrite orb_false_r, Nat.add_0_r. now destruct h.
  - cbn [fold_left]. unfold bstep at 2. cbn [bind bp_held bp_A bp_lost bp_B].
    assert (Q : checked && h = false) by (destruct H as [->|[H|(-> & _)]]; [reflexivity|discriminate|apply andb_false_r]). rewrite Q.
    rewrite (reached_none C (e :: es) K e (or_introl eq_refl)). cbn [negb].
    change (add_matrix C (be_dofs e) (bcalc e th (bs_l1 D) (gather (be_dofs e) x1)) A) with (addA A e).
    change (add_matrix C (be_dofs e) (if bs_lin D then _ else _) B) with (addB B e).
    rewrite IH.
    + cbn [length Nat.eqb negb orb]. rewrite orb_true_r. f_equal. f_equal; [destruct h; lia|now destruct (length es)].
    + destruct K as (K1 & K2 & K3). split; [intros e' d He; apply K1; now right|]. split; auto. intros e' d r j c He. apply K3. now right.
    + destruct H as [H|[H|(_ & H)]]; [now left|discriminate|]. right. left. cbn in H. destruct es; [reflexivity|cbn in H; lia].
Qed.
Definition after (rk : bool * R * list belem) : bool * nat * R :=
  let '(h, load, es) := rk in (h || negb (length es =? 0)%nat, (length es - (if h then 0 else 1))%nat, if (length es =? 0)%nat then load else bs_l2 D).
Lemma run_all rks : forall done A B, bmesh_ok C (mesh_elems rks) -> (checked = false \/ one_each rks) ->
  fold_left (brank checked C th D x1 x2) rks (Ok (done, A, B)) =
  Ok (done ++ map after rks, fold_left addA (mesh_elems rks) A, fold_left addB (mesh_elems rks) B).
Proof.
  induction rks as [|((h, load), es) rks IH]; intros done A B K H; [cbn; now rewrite app_nil_r|].
  cbn [fold_left]. unfold brank at 2. cbn [bind].
  assert (Ks : bmesh_ok C es /\ bmesh_ok C (mesh_elems rks)).
  { destruct K as (K1 & K2 & K3). cbn in K1, K3.
    split; (split; [|split; [exact K2|]]); try (intros e d He; apply K1; apply in_or_app; auto); intros e d r j c He; apply K3; apply in_or_app; auto. }
  rewrite run_rank.
  - cbn [bind bp_held bp_lost bp_load bp_A bp_B]. rewrite IH; [|apply Ks|].
    + cbn [map mesh_elems flat_map snd]. rewrite <- app_assoc, !fold_left_app. reflexivity.
    + destruct H as [H|H]; [now left|right]. intros h' l' es' I. apply (H h' l'). now right.
  - apply Ks.
  - destruct H as [H|H]; [now left|right]. exact (H h load es (or_introl eq_refl)).
Qed.
Lemma form_A es x y : bmesh_ok C es -> admissible C x -> admissible C y ->
  bilinear (n C) (fold_left addA es mzero) x y = stiffness th es (bs_l1 D) x1 x y.
Proof.
  intros K Ax Ay. unfold addA. rewrite (fold_form C es (fun e => bcalc e th (bs_l1 D) (gather (be_dofs e) x1))) by auto. rewrite bilinear_zero, Rplus_0_l.
  unfold stiffness. apply total_ext. intros e He. apply local_ext. intros. apply bcalc_tangent.
Qed.
Lemma form_B es x y : bmesh_ok C es -> admissible C x -> admissible C y ->
  bilinear (n C) (fold_left addB es mzero) x y = (if bs_lin D then stiffness th es (bs_l1 D) x1 x y else 0) - stiffness th es (bs_l2 D) x2 x y.
Proof.
  intros K Ax Ay. unfold addB. rewrite (fold_form C es matB) by auto. rewrite bilinear_zero, Rplus_0_l.
  unfold stiffness. transitivity (total (fun e => (if bs_lin D then local_form (be_dofs e) (tangent th (bs_l1 D) x1 e) x y else 0) - local_form (be_dofs e) (tangent th (bs_l2 D) x2 e) x y) es).
  - apply total_ext. intros e He. rewrite (local_ext _ _ (second e)) by (intros; apply matB_second). unfold second, local_form.
    destruct (bs_lin D).
    + unfold Rminus. rewrite Ropp_sum_local. rewrite <- sum_plus. apply sum_ext. intros k _. rewrite <- sum_plus. apply sum_ext. intros; ring.
    + unfold Rminus. rewrite Ropp_sum_local, Rplus_0_l. apply sum_ext. intros k _. apply sum_ext. intros; ring.
  - clear. induction es as [|e es IH]; [unfold total; cbn; destruct (bs_lin D); ring|]. rewrite !total_cons, IH. destruct (bs_lin D); ring.
Qed.
End Bck.
