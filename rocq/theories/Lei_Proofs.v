From Coq Require Import Reals.
From Coquelicot Require Import Coquelicot.
From Coq Require Import List Arith Bool Lra Lia Permutation.
From Verif Require Import Base BaseLemmas Sens_Model Sens_Spec Sens_Proofs Sens_Proofs2 Lna_Model Lna_Spec Lna_Proofs Rom_Model Rom_Proofs Lei_Model Lei_Spec.
Import ListNotations.
Open Scope R_scope.

Section Adm.
Variable C : sys.
Hypothesis K : forall d r j c, row C d = Some r -> In (j, c) r -> (j < n C)%nat /\ row C j = None.
Definition bare : lna := mkLna C [] true false false false (fun _ => false) false None false.
Lemma bare_ok : cells_ok bare.
Proof. split; [easy|]. exact K. Qed.
Lemma form_adm ds m x y : (forall d, In d ds -> (d < n C)%nat) -> admissible C x -> admissible C y ->
  bilinear (n C) (mctr C ds m) x y = local_form ds m x y.
Proof.
  intros D Ax Ay. unfold bilinear.
  transitivity (sum (n C) (fun i => ctr C ds (fun k => sum (length ds) (fun l => m k l * gather ds y l)) i * x i)).
  - apply sum_ext. intros i Hi. transitivity (x i * sum (n C) (fun j => mctr C ds m i j * y j)).
    { rewrite <- sum_scal_l. apply sum_ext. intros; ring. }
    pose proof (mat_adm bare bare_ok ds m y i D Hi Ay) as E. cbn [la_cons bare] in E. rewrite E. unfold ctr. destruct (constrained C i); ring.
  - pose proof (vec_adm bare bare_ok ds (fun k => sum (length ds) (fun l => m k l * gather ds y l)) x D Ax) as E. cbn [la_cons bare] in E.
    rewrite E. unfold local_form. apply sum_ext. intros k Hk. rewrite <- sum_scal_r. apply sum_ext. intros l Hl. unfold gather, dof. ring.
Qed.
End Adm.

Lemma add_mat_eq S ds m g i j : add_matrix S ds m g i j = g i j + mctr S ds m i j.
Proof. reflexivity. Qed.
Lemma eover_mat A (step : matrix -> ecell -> matrix) (c : ecell -> nat -> nat -> R) :
  (forall g e i j, step g e i j = g i j + c e i j) -> forall g i j, eover A step g i j = g i j + total (fun e => c e i j) (all_cells A).
Proof.
  intros H. unfold eover, all_cells. induction (le_ranks A) as [|rk l IH]; intros g i j; cbn [fold_left concat].
  - unfold total; cbn. ring.
  - rewrite IH, total_app, (fold_mat step c H). ring.
Qed.
Lemma bilinear_plus m M N x y : bilinear m (fun i j => M i j + N i j) x y = bilinear m M x y + bilinear m N x y.
Proof.
  unfold bilinear. rewrite <- sum_plus. apply sum_ext. intros i _. rewrite <- sum_plus. apply sum_ext. intros; ring.
Qed.
Lemma bilinear_ext m M N x y : (forall i j, M i j = N i j) -> bilinear m M x y = bilinear m N x y.
Proof. intros H. unfold bilinear. apply sum_ext. intros i _. apply sum_ext. intros j _. now rewrite H. Qed.
Lemma bilinear_total {B} m (M : B -> matrix) l x y : bilinear m (fun i j => total (fun e => M e i j) l) x y = total (fun e => bilinear m (M e) x y) l.
Proof.
  induction l as [|a l IH]; [unfold bilinear, total; cbn [map lsum]; apply sum_0; intros i _; apply sum_0; intros j _; cbn; ring|].
  rewrite total_cons, <- IH, <- bilinear_plus. reflexivity.
Qed.
Lemma bilinear_zero m x y : bilinear m mzero x y = 0.
Proof. unfold bilinear, mzero. apply sum_0; intros i _; apply sum_0; intros j _. ring. Qed.
Lemma local_total {B} ds (M : B -> matrix) l x y : local_form ds (fun i j => total (fun e => M e i j) l) x y = total (fun e => local_form ds (M e) x y) l.
Proof.
  unfold local_form. rewrite total_sum. apply sum_ext. intros i _. rewrite total_sum. apply sum_ext. intros j _.
  transitivity (total (fun e => (x (nth i ds O) * y (nth j ds O)) * M e i j) l); [rewrite total_scal; ring|]. apply total_ext. intros; ring.
Qed.
Lemma ebase_local b e : ebase b (ec_dofs e) = local_state b e.
Proof. destruct b; reflexivity. Qed.

Section One.
Variables (A : lei) (th : params).
Notation C := (le_cons A).
Hypothesis K : mesh_ok A.
Lemma eassemble_form m x y : admissible C x -> admissible C y ->
  bilinear (n C) (eassemble A th m) x y = whole_form m A th (le_base A) x y.
Proof.
  intros Ax Ay. destruct K as (K1 & K2 & K3).
  rewrite (bilinear_ext _ _ (fun i j => total (fun e => (if ec_pos e th then mctr C (ec_dofs e) (m (ec_whole e) th (ebase (le_base A) (ec_dofs e))) else mzero) i j) (all_cells A))).
  2:{ intros i j. unfold eassemble. rewrite (eover_mat A _ (fun e => (if ec_pos e th then mctr C (ec_dofs e) (m (ec_whole e) th (ebase (le_base A) (ec_dofs e))) else mzero))).
      - unfold mzero at 1. ring.
      - intros g e a b. destruct (ec_pos e th); [apply add_mat_eq|unfold mzero; ring]. }
  rewrite bilinear_total. unfold whole_form. rewrite total_filter. apply total_ext. intros e He.
  destruct (ec_pos e th); [|apply bilinear_zero]. rewrite ebase_local. apply form_adm; auto. intros d Hd. exact (K1 e d He Hd).
Qed.
Lemma none_grows : existsb (grows A th) (all_cells A) = false.
Proof.
  destruct K as (K1 & K2 & K3). apply not_true_iff_false. intros E. apply existsb_exists in E. destruct E as (e & He & E).
  unfold grows in E. apply andb_true_iff in E. destruct E as (_ & E).
  pose proof (proj2 (reached_iff C (ec_dofs e)) (fun d r j c => K3 e d r j c He)) as L. rewrite app_length in L.
  assert (Z : length (reached C (ec_dofs e)) = 0%nat) by lia. rewrite Z in E. discriminate.
Qed.
Definition srate d b f e (s ds : vec) k l : R := if ec_pos e th then total (fun q => part_rate d b A th f s ds q k l) (ec_hi e th) else 0.
Definition dstate (e : ecell) : vec := match le_base A with Some _ => local_state (le_dbase A) e | None => fun _ => 0 end.
Lemma sens_form d b f g x y : admissible C x -> admissible C y ->
  bilinear (n C) (sens_assemble A th d b f g) x y = bilinear (n C) g x y +
  total (fun e => local_form (ec_dofs e) (srate d b f e (local_state (le_base A) e) (dstate e)) x y) (all_cells A).
Proof.
  intros Ax Ay. destruct K as (K1 & K2 & K3).
  set (M := fun e (p : epart) k l => part_rate d b A th f (local_state (le_base A) e) (dstate e) p k l).
  rewrite (bilinear_ext _ _ (fun i j => g i j + total (fun e => (if ec_pos e th then (fun i j => total (fun p => mctr C (ec_dofs e) (M e p) i j) (ec_hi e th)) else mzero) i j) (all_cells A))).
  2:{ intros i j. unfold sens_assemble.
      rewrite (eover_mat A _ (fun e => (if ec_pos e th then (fun i j => total (fun p => mctr C (ec_dofs e) (M e p) i j) (ec_hi e th)) else mzero))); [reflexivity|].
      intros g' e a c. destruct (ec_pos e th); [|unfold mzero; ring].
      apply (fold_mat _ (fun p => mctr C (ec_dofs e) (M e p))). intros g2 p a2 c2. unfold sens_part. rewrite add_mat_eq. f_equal.
      unfold mctr. destruct (constrained C a2); [reflexivity|]. apply sum_ext. intros k _. apply sum_ext. intros l _. unfold M, part_rate, dstate.
      rewrite !ebase_local. f_equal. f_equal.
      unfold zero. destruct (le_topo A f); [|ring]. unfold mat_plus, mzero. destruct (pt_side p); ring. }
  rewrite bilinear_plus, bilinear_total. f_equal. apply total_ext. intros e He. unfold srate. destruct (ec_pos e th).
  - rewrite bilinear_total, local_total. apply total_ext. intros p _. apply form_adm; auto. intros q Hq. exact (K1 e q He Hq).
  - rewrite bilinear_zero. unfold local_form. symmetry. apply sum_0; intros i _; apply sum_0; intros j _; ring.
Qed.
End One.
