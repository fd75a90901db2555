(** C214 for homogenised elements: what is assembled is the condensed sensitivity of the sub-elements. *)
From Coq Require Import Reals.
From Coquelicot Require Import Coquelicot.
From Coq Require Import List Arith Bool Lra Lia Permutation.
From Verif Require Import Base BaseLemmas RBool Sens_Model Sens_Spec Sens_Proofs Lna_Model Lna_Spec Lna_Proofs Lna_Proofs2 Lna_Props.
Import ListNotations.
Open Scope R_scope.

(** static condensation of a load vector with the inverse W of the void block of M *)
Definition condensed_load (rows voids : list nat) (M W : matrix) (v : vec) (k : nat) : R :=
  if existsb (Nat.eqb k) rows
  then v k - sum (length voids) (fun a => sum (length voids) (fun b => M k (nth a voids O) * W a b * v (nth b voids O)))
  else 0.
(** [condenses] with its inverse named *)
Definition condenses_with (e : lcell) (rows voids : list nat) (M W : matrix) : Prop :=
  Permutation (rows ++ voids) (seq 0 (length (lc_dofs e))) /\ inverse_of (length voids) (void_block voids M) W /\
    forall v, exists juu ru, lc_cond e M v = (rows, juu, ru) /\ forall i, (i < length rows)%nat -> ru i = condensed_load rows voids M W v (nth i rows O).
Lemma existsb_in k l : existsb (Nat.eqb k) l = true <-> In k l.
Proof. rewrite existsb_exists. split; [intros (x & I & E); apply Nat.eqb_eq in E; now subst|intros I; exists k; split; auto; apply Nat.eqb_refl]. Qed.
Lemma load_plus rows voids M W u v k : condensed_load rows voids M W u k + condensed_load rows voids M W v k = condensed_load rows voids M W (fun k => u k + v k) k.
Proof.
  unfold condensed_load. destruct (existsb _ _); [|ring].
  rewrite (sum_ext (length voids) (fun a => sum (length voids) (fun b => M k (nth a voids O) * W a b * (u (nth b voids O) + v (nth b voids O))))
    (fun a => sum (length voids) (fun b => M k (nth a voids O) * W a b * u (nth b voids O)) + sum (length voids) (fun b => M k (nth a voids O) * W a b * v (nth b voids O)))).
  - rewrite sum_plus. ring.
  - intros a Ha. rewrite <- sum_plus. apply sum_ext. intros b Hb. ring.
Qed.
Lemma load_ext rows voids M W u v k : (forall j, u j = v j) -> condensed_load rows voids M W u k = condensed_load rows voids M W v k.
Proof. intros H. unfold condensed_load. destruct (existsb _ _); auto. rewrite H. f_equal. apply sum_ext. intros a Ha. apply sum_ext. intros b Hb. now rewrite H. Qed.
Lemma load_zero rows voids M W k : condensed_load rows voids M W zero k = 0.
Proof.
  unfold condensed_load. destruct (existsb _ _); auto. unfold zero. rewrite (sum_0 (length voids)); [ring|]. intros a Ha. apply sum_0. intros b Hb. ring.
Qed.
Lemma sens_factored A th f e x rows voids W l : condensed A e = true -> la_topo A f = false ->
  condenses_with e rows voids (homog_jac th e x) W -> forall s k,
  fst (fold_left (sens_piece A th f e x) l s) k = fst s k + condensed_load rows voids (homog_jac th e x) W (fun k => total (fun p => pc_dres p th f x k) l) k.
Proof.
  intros U T Co. induction l as [|p l IH]; intros s k; cbn [fold_left].
  - rewrite (load_ext _ _ _ _ _ zero) by reflexivity. rewrite load_zero. ring.
  - rewrite IH. unfold sens_piece at 1. change (factored A e) with (condensed A e). rewrite U, T, mscale_homog. destruct Co as (P & I & Co).
    destruct (Co (pc_dres p th f x)) as (juu & ru & E & H). rewrite E. cbn [fst]. unfold vplus.
    assert (N : NoDup rows).
    { assert (N : NoDup (rows ++ voids)) by (eapply Permutation_NoDup; [apply Permutation_sym, P|apply seq_NoDup]). clear -N. induction rows; [constructor|].
      cbn in N. inversion N; subst. constructor; auto. intros J. apply H1. apply in_or_app. now left. }
    assert (Pl : place rows ru k = condensed_load rows voids (homog_jac th e x) W (pc_dres p th f x) k).
    { destruct (in_dec Nat.eq_dec k rows) as [J|J].
      - apply In_nth with (d := O) in J. destruct J as (i & Hi & <-). rewrite place_in by auto. now apply H.
      - rewrite place_out by auto. unfold condensed_load. destruct (existsb (Nat.eqb k) rows) eqn:Q; auto. apply existsb_in in Q. contradiction. }
    rewrite Pl, Rplus_assoc. f_equal. rewrite load_plus. apply load_ext. intros j. now rewrite total_cons.
Qed.
Lemma sens_plain A th f e x l : condensed A e = false -> la_topo A f = false -> forall s k,
  fst (fold_left (sens_piece A th f e x) l s) k = fst s k + total (fun p => pc_dres p th f x k) l.
Proof.
  intros U T. induction l as [|p l IH]; intros s k; cbn [fold_left]; [unfold total; cbn; ring|].
  rewrite IH, total_cons. unfold sens_piece at 1. change (factored A e) with (condensed A e). rewrite U, T. cbn [fst]. unfold vplus. ring.
Qed.
(** what an element should contribute *)
Definition cell_sensitivity (A : lna) (th : params) (f : nat) (rows voids : lcell -> list nat) (W : lcell -> matrix) (X : vec) (e : lcell) : vec :=
  let x := elem_solution A X e in
  let v := fun k => total (fun p => pc_dres p th f x k) (lc_hi e th) in
  if condensed A e then condensed_load (rows e) (voids e) (homog_jac th e x) (W e) v else v.
Theorem C214_factored : forall A th f X rows voids W, la_set A = true -> la_topo A f = false ->
  (forall e, In e (cells A) -> condensed A e = true -> condenses_with e (rows e) (voids e) (homog_jac th e (elem_solution A X e)) (W e)) ->
  exists g, lsensitivity_assemble A th f X = Ok g /\ forall i,
    g i = match row (la_cons A) i with
          | Some _ => 0
          | None => total (fun e => part (la_cons A) (lc_dofs e) (cell_sensitivity A th f rows voids W X e) i)
                      (filter (fun e => negb (excluded A f e) && takes A th e) (cells A))
          end.
Proof.
  intros A th f X rows voids W L T Co. unfold lsensitivity_assemble. rewrite T, L. cbn [andb negb]. eexists. split; [reflexivity|]. intros i.
  rewrite lsens_eq. unfold constrained. destruct (row (la_cons A) i); auto. rewrite total_filter. apply total_ext. intros e He. unfold zif.
  destruct (_ && _); auto. unfold part. apply sum_ext. intros k Hk. f_equal. unfold cell_sensitivity. destruct (condensed A e) eqn:U.
  - rewrite (sens_factored A th f e _ (rows e) (voids e) (W e)) by auto. unfold zero. cbn [fst]. ring.
  - rewrite (sens_plain A th f e) by auto. unfold zero. cbn [fst]. ring.
Qed.
(** an element with a material and a void unknown, condensed with the inverse of its void block *)
Definition two_cond : matrix -> vec -> list nat * matrix * vec := fun m v =>
  ([0%nat], (fun _ _ => m 0%nat 0%nat - m 0%nat 1%nat * / m 1%nat 1%nat * m 1%nat 0%nat), (fun _ => v 0%nat - m 0%nat 1%nat * / m 1%nat 1%nat * v 1%nat)).
Definition bar : piece := mkPiece (fun th x k => th O * x k) (fun th _ k l => if (k =? l)%nat then 2 else -1) (fun _ _ x k => x k) false (fun _ _ x k => 0)
  (fun _ _ => 0) (fun _ _ _ => 0) (fun _ _ _ _ => 0) (fun _ _ _ => 0).
Definition two : lcell := mkLcell [0; 1]%nat [1] (fun _ => false) (fun _ => true) (fun _ => [bar]) (fun _ => []) (fun _ => 1 / 2) bar true (fun x => x) two_cond.
Example C214_factored_example : exists A th f X rows voids W, la_set A = true /\ la_topo A f = false /\ cells A = [two] /\ condensed A two = true /\
  (forall e, In e (cells A) -> condensed A e = true -> condenses_with e (rows e) (voids e) (homog_jac th e (elem_solution A X e)) (W e)).
Proof.
  exists (asm false false false true [two]), (fun _ => 1), O, (fun _ => 1), (fun _ => [0%nat]), (fun _ => [1%nat]), (fun _ _ _ => 1).
  split; [reflexivity|]. split; [reflexivity|]. split; [reflexivity|]. split; [reflexivity|]. intros e [<-|[]] _. split; [apply Permutation_refl|]. split.
  - intros a b Ha Hb. cbn in Ha, Hb. assert (a = O) by lia. assert (b = O) by lia. subst. unfold void_block, homog_jac, delta. cbn. split; field.
  - intros v. eexists _, _. split; [reflexivity|]. intros i Hi. cbn in Hi. assert (i = O) by lia. subst. unfold condensed_load, homog_jac. cbn. field.
Qed.
Print Assumptions C214_factored.
