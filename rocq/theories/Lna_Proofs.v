From Coq Require Import Reals.
From Coquelicot Require Import Coquelicot.
From Coq Require Import List Arith Bool Permutation Lia Lra.
From Verif Require Import Base BaseLemmas RBool Sens_Model Sens_Spec Sens_Proofs Sens_Proofs2 Lna_Model Lna_Spec.
Import ListNotations.
Open Scope R_scope.

(** ** the indicator *)
Lemma max_above c l : forall a, rltb c (fold_left (fun m x => if rltb m x then x else m) l a) = existsb (fun v => rltb c v) (a :: l).
Proof.
  induction l as [|b l IH]; intros a; cbn; [now rewrite orb_false_r|]. rewrite IH. cbn. unfold rltb.
  destruct (Rlt_dec a b), (Rlt_dec c a), (Rlt_dec c b); cbn; auto; lra.
Qed.
Lemma max_below c l : forall a, rltb (fold_left (fun m x => if rltb m x then x else m) l a) c = forallb (fun v => rltb v c) (a :: l).
Proof.
  induction l as [|b l IH]; intros a; cbn; [now rewrite andb_true_r|]. rewrite IH. cbn. unfold rltb.
  destruct (Rlt_dec a b), (Rlt_dec a c), (Rlt_dec b c); cbn; auto; lra.
Qed.
Lemma tol_pos : 0 < / 10 ^ 10 /\ / 10 ^ 10 < 1.
Proof. split; [apply Rinv_0_lt_compat; lra|]. apply (Rmult_lt_reg_r (10 ^ 10)); [lra|]. rewrite Rinv_l; lra. Qed.
Lemma counts_eq A th e : counts A th e = takes A th e.
Proof.
  unfold counts, takes, shown, nd_indicator, tol. destruct tol_pos. f_equal. destruct (la_ind A); cbn [negb orb].
  - destruct (lc_nodes e) as [|a l]; cbn [max_coeff]; [|apply max_above].
    unfold rltb. destruct (Rlt_dec _ 0); cbn; auto; lra.
  - cbn. unfold rltb. destruct (Rlt_dec _ 1); auto; lra.
Qed.
Lemma blank_eq A th e : blank A th e = voided A th e.
Proof.
  unfold blank, voided, nd_indicator, tol. destruct tol_pos. f_equal. destruct (la_ind A); cbn [andb].
  - destruct (lc_nodes e) as [|a l]; cbn [max_coeff]; [|apply max_below].
    unfold rltb. destruct (Rlt_dec 0 _); cbn; auto; lra.
  - cbn. unfold rltb. destruct (Rlt_dec 1 _); auto; lra.
Qed.

(** ** loops over processes and elements *)
Lemma over_vec A (step : vec -> lcell -> vec) (c : lcell -> nat -> R) :
  (forall g e i, step g e i = g i + c e i) -> forall g i, lover A step g i = g i + total (fun e => c e i) (cells A).
Proof.
  intros H. unfold lover, cells. induction (la_ranks A) as [|rk l IH]; intros g i; cbn [fold_left concat].
  - unfold total; cbn. ring.
  - rewrite IH, total_app, (fold_vec step c H). ring.
Qed.
Lemma over_num A (step : R -> lcell -> R) (c : lcell -> R) :
  (forall g e, step g e = g + c e) -> forall g, lover A step g = g + total c (cells A).
Proof.
  intros H. unfold lover, cells. induction (la_ranks A) as [|rk l IH]; intros g; cbn [fold_left concat].
  - unfold total; cbn. ring.
  - rewrite IH, total_app, (fold_num step c H). ring.
Qed.
Lemma over_mat A (step : matrix -> lcell -> matrix) (c : lcell -> nat -> nat -> R) :
  (forall g e i j, step g e i j = g i j + c e i j) -> forall g i j, lover A step g i j = g i j + total (fun e => c e i j) (cells A).
Proof.
  intros H. unfold lover, cells. induction (la_ranks A) as [|rk l IH]; intros g i j; cbn [fold_left concat].
  - unfold total; cbn. ring.
  - rewrite IH, total_app, (fold_mat step c H). ring.
Qed.

(** ** loops over sub-elements *)
Lemma pieces_vec_mat th x l : forall v m k, 
  fst (fold_left (fun s p => (vplus (fst s) (pc_res p th x), mplus (snd s) (pc_jac p th x))) l (v, m)) k = v k + total (fun p => pc_res p th x k) l.
Proof.
  induction l as [|p l IH]; intros v m k; cbn [fold_left fst snd]; [unfold total; cbn; ring|]. rewrite IH, total_cons. unfold vplus. ring.
Qed.
Lemma pieces_mat th x l : forall v m k j, 
  snd (fold_left (fun s p => (vplus (fst s) (pc_res p th x), mplus (snd s) (pc_jac p th x))) l (v, m)) k j = m k j + total (fun p => pc_jac p th x k j) l.
Proof.
  induction l as [|p l IH]; intros v m k j; cbn [fold_left fst snd]; [unfold total; cbn; ring|]. rewrite IH, total_cons. unfold mplus. ring.
Qed.

(** ** place *)
Lemma place_upto rows r : NoDup rows -> forall m, (m <= length rows)%nat -> forall k,
  fold_left (fun v i => upd v (nth i rows O) (r i)) (seq 0 m) zero k =
  match find (fun i => (nth i rows O =? k)%nat) (seq 0 m) with Some i => r i | None => 0 end.
Proof.
  intros N. induction m as [|m IH]; intros Hm k; [reflexivity|]. rewrite seq_S, fold_left_app. cbn [fold_left Nat.add].
  specialize (IH ltac:(lia) k).
  assert (F : forall l, find (fun i => (nth i rows O =? k)%nat) (l ++ [m]) =
     match find (fun i => (nth i rows O =? k)%nat) l with Some i => Some i | None => if (nth m rows O =? k)%nat then Some m else None end).
  { induction l as [|a l IHl]; cbn; [reflexivity|]. destruct (nth a rows O =? k)%nat; auto. }
  rewrite F. unfold upd at 1. destruct (Nat.eqb_spec k (nth m rows O)) as [E|E].
  - subst k. destruct (find _ (seq 0 m)) as [i|] eqn:Q.
    + apply find_some in Q. destruct Q as [Qi Qe]. apply in_seq in Qi. apply Nat.eqb_eq in Qe.
      apply (proj1 (NoDup_nth rows O) N) in Qe; try lia.
    + now rewrite Nat.eqb_refl.
  - rewrite IH. destruct (find _ (seq 0 m)); auto. destruct (Nat.eqb_spec (nth m rows O) k); congruence.
Qed.
Lemma find_nth rows i : NoDup rows -> (i < length rows)%nat -> find (fun a => (nth a rows O =? nth i rows O)%nat) (seq 0 (length rows)) = Some i.
Proof.
  intros N Hi. destruct (find _ _) as [j|] eqn:Q.
  - apply find_some in Q. destruct Q as [Qj Qe]. apply in_seq in Qj. apply Nat.eqb_eq in Qe.
    apply (proj1 (NoDup_nth rows O) N) in Qe; try lia. now subst.
  - exfalso. assert (E := find_none _ _ Q i ltac:(apply in_seq; lia)). cbn beta in E. rewrite Nat.eqb_refl in E. discriminate.
Qed.
Lemma place_in rows r i : NoDup rows -> (i < length rows)%nat -> place rows r (nth i rows O) = r i.
Proof. intros N Hi. unfold place. rewrite place_upto, find_nth; auto. Qed.
Lemma place_out rows r k : NoDup rows -> ~ In k rows -> place rows r k = 0.
Proof.
  intros N Hk. unfold place. rewrite place_upto; auto. destruct (find _ _) as [j|] eqn:Q; auto.
  apply find_some in Q. destruct Q as [Qj Qe]. apply in_seq in Qj. apply Nat.eqb_eq in Qe. exfalso. apply Hk. subst k. apply nth_In. lia.
Qed.
Lemma place_row rows (j : matrix) i : NoDup rows -> forall c (m : matrix), (c <= length rows)%nat -> (i < length rows)%nat ->
  forall a b, fold_left (fun m k => upd m (nth i rows O) (upd (m (nth i rows O)) (nth k rows O) (j i k))) (seq 0 c) m a b =
  if (a =? nth i rows O)%nat
  then match find (fun k => (nth k rows O =? b)%nat) (seq 0 c) with Some k => j i k | None => m a b end
  else m a b.
Proof.
  intros N. induction c as [|c IH]; intros m Hc Hi a b; [cbn; now destruct (a =? _)%nat|].
  rewrite seq_S, fold_left_app. cbn [fold_left Nat.add].
  assert (F : forall l, find (fun i => (nth i rows O =? b)%nat) (l ++ [c]) =
     match find (fun i => (nth i rows O =? b)%nat) l with Some i => Some i | None => if (nth c rows O =? b)%nat then Some c else None end).
  { induction l as [|d l IHl]; cbn; [reflexivity|]. destruct (nth d rows O =? b)%nat; auto. }
  rewrite F. unfold upd at 1. destruct (Nat.eqb_spec a (nth i rows O)) as [E|E].
  - subst a. unfold upd at 1. destruct (Nat.eqb_spec b (nth c rows O)) as [E|E].
    + subst b. destruct (find _ (seq 0 c)) as [q|] eqn:Q.
      * apply find_some in Q. destruct Q as [Qi Qe]. apply in_seq in Qi. apply Nat.eqb_eq in Qe.
        apply (proj1 (NoDup_nth rows O) N) in Qe; try lia.
      * now rewrite Nat.eqb_refl.
    + rewrite IH, Nat.eqb_refl by lia. destruct (find _ (seq 0 c)); auto. destruct (Nat.eqb_spec (nth c rows O) b); congruence.
  - rewrite IH by lia. destruct (Nat.eqb_spec a (nth i rows O)); congruence.
Qed.
Lemma place_mat_in rows j i k : NoDup rows -> (i < length rows)%nat -> (k < length rows)%nat ->
  place_mat rows j (nth i rows O) (nth k rows O) = j i k.
Proof.
  intros N Hi Hk. unfold place_mat. generalize (ident (/ 10 ^ 6)). intros m0.
  assert (G : forall c m, (c <= length rows)%nat -> (i < c)%nat ->
    fold_left (fun m a => fold_left (fun m b => upd m (nth a rows O) (upd (m (nth a rows O)) (nth b rows O) (j a b)))
                          (seq 0 (length rows)) m) (seq 0 c) m (nth i rows O) (nth k rows O) = j i k).
  { induction c as [|c IH]; intros m Hc Hic; [lia|]. rewrite seq_S, fold_left_app. cbn [fold_left Nat.add].
    rewrite place_row; auto; try lia. destruct (Nat.eqb_spec (nth i rows O) (nth c rows O)) as [E|E].
    - apply (proj1 (NoDup_nth rows O) N) in E; try lia. subst c. now rewrite find_nth.
    - apply IH; try lia. destruct (Nat.eq_dec i c); [congruence|lia]. }
  apply G; lia.
Qed.

(** ** constrained matrix times an admissible direction *)
Section Adm.
Variable A : lna.
Notation C := (la_cons A).
Hypothesis K : cells_ok A.
Definition strip : sys := mkSys (n C) 0 [] [] (fun _ => false) (row C) (fun _ => false) None.
Lemma strip_wf : well_formed strip.
Proof.
  split; [|split]; [easy|easy|]. intros d r j c E I. exact (proj2 K d r j c E I).
Qed.
Lemma mat_adm ds m y i : (forall d, In d ds -> (d < n C)%nat) -> (i < n C)%nat -> admissible C y ->
  sum (n C) (fun j => mctr C ds m i j * y j) =
  if constrained C i then 0 else part C ds (fun k => sum (length ds) (fun l => m k l * gather ds y l)) i.
Proof.
  intros D Hi Ad. pose proof strip_wf as W.
  assert (Cs : forall d, (d < n C)%nat -> sum (n C) (fun j => coef C d j * y j) = y d).
  { intros d Hd. transitivity (enforce strip y d); [exact (coef_sum strip W y d Hd)|]. exact (enforce_adm strip y d Ad Hd). }
  assert (Cc : forall d j, (d < n C)%nat -> constrained C j = true -> coef C d j = 0) by (intros; now apply (coef_constrained strip W)).
  destruct (constrained C i) eqn:Ci.
  - transitivity (sum (n C) (fun j => (if existsb (Nat.eqb i) ds then (if (i =? j)%nat then y j else 0) - coef C i j * y j else 0))).
    { apply sum_ext. intros j Hj. unfold mctr. rewrite Ci. destruct (existsb _ _); [|ring]. destruct (Nat.eqb_spec i j).
      - subst j. rewrite (Cc i i) by auto. ring.
      - ring. }
    destruct (existsb _ _); [|apply sum_0; auto]. rewrite sum_minus, Cs by auto.
    rewrite (sum_single (n C) i); auto; [rewrite Nat.eqb_refl; ring|]. intros k _ Hk. destruct (Nat.eqb_spec i k); congruence.
  - unfold part.
    transitivity (sum (n C) (fun j => sum (length ds) (fun k => sum (length ds) (fun l =>
       coef C (dof ds k) i * m k l * (coef C (dof ds l) j * y j))))).
    { apply sum_ext. intros j _. unfold mctr. rewrite Ci. rewrite <- sum_scal_r. apply sum_ext. intros k _.
      rewrite <- sum_scal_r. apply sum_ext. intros; ring. }
    rewrite sum_swap. apply sum_ext. intros k Hk. rewrite sum_swap.
    rewrite <- sum_scal_l. apply sum_ext. intros l Hl. rewrite sum_scal_l.
    rewrite Cs; [unfold gather; ring|]. apply D, nth_In; auto.
Qed.
Lemma vec_adm ds v y : (forall d, In d ds -> (d < n C)%nat) -> admissible C y ->
  sum (n C) (fun i => ctr C ds v i * y i) = sum (length ds) (fun k => v k * gather ds y k).
Proof.
  intros D Ad. pose proof strip_wf as W.
  assert (Cs : forall d, (d < n C)%nat -> sum (n C) (fun j => coef C d j * y j) = y d).
  { intros d Hd. transitivity (enforce strip y d); [exact (coef_sum strip W y d Hd)|]. exact (enforce_adm strip y d Ad Hd). }
  assert (Cc : forall d j, (d < n C)%nat -> constrained C j = true -> coef C d j = 0) by (intros; now apply (coef_constrained strip W)).
  transitivity (sum (n C) (fun i => sum (length ds) (fun k => v k * (coef C (dof ds k) i * y i)))).
  - apply sum_ext. intros i Hi. unfold ctr, part. destruct (constrained C i) eqn:Ci.
    + rewrite sum_0; [ring|]. intros k Hk. rewrite Cc; auto; [ring|]. apply D, nth_In; auto.
    + rewrite <- sum_scal_r. apply sum_ext. intros; ring.
  - rewrite sum_swap. apply sum_ext. intros k Hk. rewrite sum_scal_l, Cs; [reflexivity|]. apply D, nth_In; auto.
Qed.
End Adm.
