(** C235-C236: comparison of matrices and check of element matrices by finite differences. *)
From Coq Require Import List Arith Bool Lia Reals Lra FunctionalExtensionality.
From Verif Require Import Base RBool Njc_Model Njc_Spec.
Import ListNotations.
Open Scope R_scope.

Lemma ceps_pos : 0 < ceps. Proof. unfold ceps. apply Rinv_0_lt_compat. lra. Qed.
Lemma delta_pos : 0 < delta. Proof. unfold delta. apply Rinv_0_lt_compat. lra. Qed.
Lemma ceps_val : ceps = 1 / 10000000. Proof. unfold ceps. field. Qed.
Lemma delta_val : delta = 1 / 100000000. Proof. unfold delta. field. Qed.
(** ** C235 *)
Theorem C235_compare : forall v1 v2 tol, compare v1 v2 tol = true <->
  (Rabs v1 <= / 10 ^ 7 /\ Rabs v2 <= / 10 ^ 7) \/ Rabs (v1 - v2) <= / 10 ^ 7 \/ (v1 <> 0 /\ Rabs (v1 - v2) <= tol * Rabs v1).
Proof.
  intros v1 v2 tol. unfold compare, is_zero. fold ceps.
  destruct (rleb (Rabs v1) ceps) eqn:A, (rleb (Rabs v2) ceps) eqn:B; cbn [andb];
  try (apply rleb_true in A); try (apply rleb_true in B); try (apply rleb_false in A); try (apply rleb_false in B);
  [split; auto| | |];
  (destruct (rleb (Rabs (v1 - v2)) ceps) eqn:C; [apply rleb_true in C; split; auto|apply rleb_false in C]);
  (destruct (rltb 0 (Rabs v1)) eqn:P; [apply rltb_true in P|apply rltb_false in P]).
  all: try (assert (N : v1 <> 0) by (intros ->; rewrite Rabs_R0 in P; lra);
    assert (Q : Rabs ((v1 - v2) / v1) <= tol <-> Rabs (v1 - v2) <= tol * Rabs v1) by
     (unfold Rdiv; rewrite Rabs_mult, Rabs_inv; split; intros H;
       [apply Rmult_le_compat_r with (r := Rabs v1) in H; [|lra]; rewrite Rmult_assoc, Rinv_l, Rmult_1_r in H by lra; exact H
       |apply Rmult_le_reg_r with (r := Rabs v1); [exact P|]; rewrite Rmult_assoc, Rinv_l, Rmult_1_r by lra; exact H]);
    rewrite rleb_true, Q; split; [auto|intros [[? ?]|[?|[? ?]]]; auto; lra]).
  all: split; [discriminate|]; intros [[? ?]|[?|[N ?]]]; try lra; pose proof (Rabs_pos_lt v1 N); lra.
Qed.
(** What is accepted is close, and what is close is accepted. *)
Theorem C235_bound : forall v1 v2 tol, 0 <= tol ->
  (compare v1 v2 tol = true -> Rabs (v1 - v2) <= Rmax (2 / 10 ^ 7) (tol * Rabs v1)) /\
  (Rabs (v1 - v2) <= Rmax (/ 10 ^ 7) (tol * Rabs v1) -> compare v1 v2 tol = true).
Proof.
  intros v1 v2 tol T. pose proof ceps_pos as P. unfold ceps in P. split.
  - rewrite C235_compare. intros [[A B]|[A|[_ A]]].
    + eapply Rle_trans; [|apply Rmax_l]. pose proof (Rabs_triang v1 (- v2)) as H. rewrite Rabs_Ropp in H. unfold Rminus. lra.
    + eapply Rle_trans; [|apply Rmax_l]. lra.
    + eapply Rle_trans; [exact A|apply Rmax_r].
  - intros H. apply C235_compare. unfold Rmax in H. destruct (Rle_dec (/ 10 ^ 7) (tol * Rabs v1)) as [R|R]; [|auto].
    right; right. split; auto. intros ->. rewrite Rabs_R0 in R. lra.
Qed.
(** The order matters: the difference is taken relative to the first value. *)
Theorem C235_symmetric_refuted : exists v1 v2 tol, 0 < tol /\ compare v1 v2 tol = true /\ compare v2 v1 tol = false.
Proof.
  exists 1, (1 - 1 / 100000), (1 / 100000). split; [lra|]. split.
  - apply C235_compare. right; right. split; [lra|]. replace (1 - (1 - 1 / 100000)) with (1 / 100000) by lra. rewrite !Rabs_right by lra. lra.
  - destruct (compare _ _ _) eqn:E; [|reflexivity]. apply C235_compare in E.
    replace (1 - 1 / 100000 - 1) with (- (1 / 100000)) in E by lra. rewrite Rabs_Ropp, !Rabs_right in E by lra.
    assert (V : / 10 ^ 7 = 1 / 10000000) by field. rewrite V in E. destruct E as [[? ?]|[?|[_ ?]]]; lra.
Qed.
Lemma in_failures rows cols m0 m tol i j : In (i, j) (failures rows cols m0 m tol) <-> (i < rows)%nat /\ (j < cols)%nat /\ compare (m0 i j) (m i j) tol = false.
Proof.
  unfold failures. rewrite in_flat_map. split.
  - intros (i' & Hi & H). apply in_flat_map in H. destruct H as (j' & Hj & H). apply in_seq in Hi, Hj.
    destruct (compare (m0 i' j') (m i' j') tol) eqn:E; [destruct H|]. destruct H as [H|[]]. injection H as <- <-. repeat split; auto; lia.
  - intros (Hi & Hj & E). exists i. split; [apply in_seq; lia|]. apply in_flat_map. exists j. split; [apply in_seq; lia|]. rewrite E. left; reflexivity.
Qed.
(** A comparison of matrices names exactly the entries that differ, and passes if there is none. *)
Theorem C235_matrix : forall rows cols m0 m tol, exists l b, compare_matrix (rows, cols) (rows, cols) m0 m tol = Ok (l, b) /\
  (forall i j, In (i, j) l <-> (i < rows)%nat /\ (j < cols)%nat /\ compare (m0 i j) (m i j) tol = false) /\
  (b = true <-> forall i j, (i < rows)%nat -> (j < cols)%nat -> compare (m0 i j) (m i j) tol = true).
Proof.
  intros rows cols m0 m tol. unfold compare_matrix. cbn [fst snd]. rewrite !Nat.eqb_refl. cbn [andb assert_].
  eexists _, _. split; [reflexivity|]. split; [intros; apply in_failures|].
  split.
  - destruct (failures rows cols m0 m tol) as [|q l] eqn:E; [|discriminate]. intros _ i j Hi Hj.
    destruct (compare (m0 i j) (m i j) tol) eqn:C; [reflexivity|]. assert (X : In (i, j) (failures rows cols m0 m tol)) by (apply in_failures; auto). rewrite E in X. destruct X.
  - intros H. destruct (failures rows cols m0 m tol) as [|[i j] l] eqn:E; [reflexivity|].
    assert (X : In (i, j) (failures rows cols m0 m tol)) by (rewrite E; left; reflexivity). apply in_failures in X. destruct X as (A & B & C). rewrite H in C by auto. discriminate.
Qed.
Theorem C235_sizes : forall s0 s m0 m tol, s0 <> s -> compare_matrix s0 s m0 m tol = Fault AssertFailed.
Proof.
  intros [a b] [c e] m0 m tol H. unfold compare_matrix. cbn [fst snd].
  destruct (Nat.eqb_spec a c), (Nat.eqb_spec b e); cbn [andb assert_]; try reflexivity. subst. congruence.
Qed.

(** ** C236 *)
Lemma shift_moved x j : nshift x j = moved x j delta.
Proof. reflexivity. Qed.
Lemma columns_set E F J x res0 k : computes E F J -> forall l dres jac r c, NoDup l ->
  ncolumns E x res0 k l dres jac r c = if in_dec Nat.eq_dec c l then (F (nshift x c) r - res0 r) / delta else jac r c.
Proof.
  intros [HF _]. induction l as [|i t IH]; intros dres jac r c N; cbn [ncolumns]; [reflexivity|].
  inversion N as [|? ? NI NT]; subst. rewrite IH by auto.
  destruct (in_dec Nat.eq_dec c t) as [I|I], (in_dec Nat.eq_dec c (i :: t)) as [I'|I']; try reflexivity.
  - exfalso. apply I'. right; auto.
  - destruct I' as [->|I']; [|contradiction]. rewrite Nat.eqb_refl, HF. reflexivity.
  - destruct (Nat.eqb_spec c i); [|reflexivity]. subst. exfalso. apply I'. left; auto.
Qed.
(** What the check prints, and that the element gets its solution back. *)
Theorem C236_prints : forall n E F J x, computes E F J -> exists p, ncheck n E x = Ok p /\ np_sol p = x /\
  (forall i j, np_jac0 p i j = J x i j) /\
  (forall i j, (j < n)%nat -> np_jac p i j = (F (moved x j (/ 10 ^ 8)) i - F x i) / (/ 10 ^ 8)) /\
  (forall i j, In (i, j) (np_fail p) <-> (i < n)%nat /\ (j < n)%nat /\ compare (np_jac p i j) (np_jac0 p i j) (/ 10 ^ 5) = false).
Proof.
  intros n E F J x HE. unfold ncheck.
  destruct (C235_matrix n n (ncolumns E x (ne_vec E x nzero) n (seq 0 n) nzero (fun _ _ => 0)) (ne_mat E x (fun _ _ => 0)) (/ 10 ^ 5)) as (l & b & EQ & HL & _).
  rewrite EQ. cbn [bind]. eexists. split; [reflexivity|]. cbn [np_sol np_jac0 np_jac np_fail fst]. split; [reflexivity|]. split; [|split; [|exact HL]].
  - intros i j. apply HE.
  - intros i j Hj. rewrite (columns_set E F J) by (auto; apply seq_NoDup).
    destruct (in_dec Nat.eq_dec j (seq 0 n)) as [_|N]; [|exfalso; apply N; apply in_seq; lia]. destruct HE as [HF _]. rewrite HF. reflexivity.
Qed.
Lemma quotient n F x D L i j : smooth n F x D L -> (i < n)%nat -> (j < n)%nat -> Rabs ((F (moved x j delta) i - F x i) / delta - D i j) <= L * delta.
Proof.
  intros S Hi Hj. destruct (S i j Hi Hj) as (g & G0 & GD & GL). fold delta in GD, GL. pose proof delta_pos as P.
  destruct (MVT_cor2 (fun s => F (moved x j s) i) g 0 delta P ltac:(intros c Hc; apply GD; exact Hc)) as (c & EQ & Hc).
  assert (M0 : moved x j 0 = x) by (apply functional_extensionality; intros k; unfold moved; destruct (k =? j)%nat; ring).
  cbv beta in EQ. rewrite M0 in EQ. rewrite EQ, <- G0. replace (g c * (delta - 0) / delta - g 0) with (g c - g 0) by (field; lra).
  assert (HL : Rabs (g c - g 0) <= L * c) by (apply GL; lra).
  eapply Rle_trans; [exact HL|].
  assert (0 <= L * c) by (eapply Rle_trans; [apply Rabs_pos|exact HL]).
  assert (0 <= L) by (destruct (Rle_or_lt 0 L); auto; assert (L * c < 0 * c) by (apply Rmult_lt_compat_r; lra); lra).
  apply Rmult_le_compat_l; lra.
Qed.
(** A right matrix of a residual whose derivative varies by less than ten per unit raises nothing. *)
Theorem C236_right_partial : forall n E F J x L, computes E F J -> smooth n F x (J x) L -> L <= 10 ->
  exists p, ncheck n E x = Ok p /\ np_fail p = [].
Proof.
  intros n E F J x L HE HS HL. destruct (C236_prints n E F J x HE) as (p & EP & _ & A & B & C). exists p. split; [exact EP|].
  destruct (np_fail p) as [|[i j] l] eqn:EF; [reflexivity|]. exfalso.
  assert (X : In (i, j) ((i, j) :: l)) by (left; reflexivity). apply C in X. destruct X as (Hi & Hj & X).
  assert (Y : compare (np_jac p i j) (np_jac0 p i j) (/ 10 ^ 5) = true); [|congruence].
  apply C235_compare. right; left. rewrite A, B by auto. fold delta. eapply Rle_trans; [apply (quotient n F x (J x) L); auto|].
  pose proof delta_pos. fold ceps. rewrite ceps_val, delta_val in *. lra.
Qed.
(** A matrix that is wrong by more than the tolerances is reported, at that entry. *)
Theorem C236_wrong : forall n E F J x D L i j, computes E F J -> smooth n F x D L -> (i < n)%nat -> (j < n)%nat ->
  Rmax (2 / 10 ^ 7) (/ 10 ^ 5 * (Rabs (D i j) + L / 10 ^ 8)) + L / 10 ^ 8 < Rabs (D i j - J x i j) ->
  exists p, ncheck n E x = Ok p /\ In (i, j) (np_fail p).
Proof.
  intros n E F J x D L i j HE HS Hi Hj HW. destruct (C236_prints n E F J x HE) as (p & EP & _ & A & B & C). exists p. split; [exact EP|].
  apply C. repeat split; auto. destruct (compare _ _ _) eqn:E1; [|reflexivity]. exfalso.
  apply (proj1 (C235_bound _ _ (/ 10 ^ 5) ltac:(left; apply Rinv_0_lt_compat; lra))) in E1. rewrite A, B in E1 by auto. fold delta in E1.
  pose proof (quotient n F x D L i j HS Hi Hj) as Q. set (N := (F (moved x j delta) i - F x i) / delta) in *.
  replace (L / 10 ^ 8) with (L * delta) in HW by (unfold delta; field).
  assert (T1 : Rabs N <= Rabs (D i j) + L * delta) by (replace N with (D i j + (N - D i j)) by ring; eapply Rle_trans; [apply Rabs_triang|lra]).
  assert (T2 : Rabs (D i j - J x i j) <= L * delta + Rabs (N - J x i j)).
  { replace (D i j - J x i j) with (- (N - D i j) + (N - J x i j)) by ring. eapply Rle_trans; [apply Rabs_triang|]. rewrite Rabs_Ropp. lra. }
  assert (T3 : Rmax (2 / 10 ^ 7) (/ 10 ^ 5 * Rabs N) <= Rmax (2 / 10 ^ 7) (/ 10 ^ 5 * (Rabs (D i j) + L * delta))).
  { apply Rmax_case; [apply Rmax_l|]. eapply Rle_trans; [|apply Rmax_r]. apply Rmult_le_compat_l; [left; apply Rinv_0_lt_compat; lra|exact T1]. }
  lra.
Qed.
(** The step does not follow the residual: the right matrix of a steep residual is reported. *)
Theorem C236_steep_refuted : exists E F J x p, computes E F J /\ (forall t, derivable_pt_lim (fun s => F (moved x 0 s) 0%nat) t (200 * (x 0%nat + t))) /\ J x 0%nat 0%nat = 200 * x 0%nat /\
  ncheck 1 E x = Ok p /\ np_fail p = [(0%nat, 0%nat)].
Proof.
  set (F := fun (x : nvec) (_ : nat) => 100 * (x 0%nat * x 0%nat)). set (J := fun (x : nvec) (_ _ : nat) => 200 * x 0%nat).
  set (E := mkNe (fun x _ => F x) (fun x _ => J x)).
  assert (HE : computes E F J) by (split; reflexivity).
  destruct (C236_prints 1 E F J nzero HE) as (p & EP & _ & A & B & C).
  exists E, F, J, nzero, p. split; [exact HE|]. split; [|split; [reflexivity|split; [exact EP|]]].
  - intros t. unfold F, moved, nzero; cbn [Nat.eqb]. replace (200 * (0 + t)) with (100 * ((0 + 1) * (0 + t) + (0 + t) * (0 + 1))) by ring.
    apply (derivable_pt_lim_scal (fun s => (0 + s) * (0 + s))). apply (derivable_pt_lim_mult (fun s => 0 + s) (fun s => 0 + s)); apply (derivable_pt_lim_plus (fun _ => 0) id); (apply derivable_pt_lim_const || apply derivable_pt_lim_id).
  - assert (X : compare (np_jac p 0%nat 0%nat) (np_jac0 p 0%nat 0%nat) (/ 10 ^ 5) = false).
    { rewrite A, B by lia. destruct (compare _ _ _) eqn:Q; [|reflexivity]. exfalso. apply C235_compare in Q.
      replace ((F (moved nzero 0 (/ 10 ^ 8)) 0%nat - F nzero 0%nat) / / 10 ^ 8) with (1 / 1000000) in Q by (unfold F, moved, nzero; cbn [Nat.eqb]; field).
      replace (J nzero 0%nat 0%nat) with 0 in Q by (unfold J, nzero; ring). rewrite Rminus_0_r, Rabs_right in Q by lra.
      assert (V : / 10 ^ 7 = 1 / 10000000) by field. assert (V' : / 10 ^ 5 = 1 / 100000) by field. rewrite V, V' in Q. destruct Q as [[? ?]|[?|[_ ?]]]; lra. }
    assert (I : In (0%nat, 0%nat) (np_fail p)) by (apply C; auto).
    unfold ncheck, compare_matrix in EP. cbn in EP. injection EP as <-. cbn in *. destruct (compare _ _ _); [destruct I|reflexivity].
Qed.
(** An element that adds to the vector it is given, as the assembly does, is reported although its matrix is right. *)
Theorem C236_adds_refuted : exists E x p, (forall y v i, ne_vec E y v i = v i + y i) /\ (forall y i j, ne_mat E y (fun _ _ => 0) i j = if (i =? j)%nat then 1 else 0) /\
  ncheck 2 E x = Ok p /\ In (0%nat, 1%nat) (np_fail p).
Proof.
  set (E := mkNe (fun y v i => v i + y i) (fun y m i j => m i j + if (i =? j)%nat then 1 else 0)).
  exists E, nzero. eexists. split; [reflexivity|]. split; [intros; cbn; ring|].
  split; [unfold ncheck, compare_matrix; cbn [fst snd Nat.eqb andb assert_ bind]; reflexivity|].
  cbn [np_fail]. apply in_failures. split; [lia|]. split; [lia|].
  destruct (compare _ _ _) eqn:Q; [|reflexivity]. exfalso. apply C235_compare in Q. pose proof delta_pos.
  cbn [ncolumns seq E ne_vec ne_mat Nat.eqb] in Q. unfold nshift, nzero in Q. cbn [Nat.eqb] in Q.
  replace ((0 + (0 + delta) + 0 - (0 + 0)) / delta) with 1 in Q by (field; lra). replace (0 + 0) with 0 in Q by ring. rewrite Rminus_0_r, Rabs_R1 in Q.
  assert (V : / 10 ^ 7 = 1 / 10000000) by field. assert (V' : / 10 ^ 5 = 1 / 100000) by field. rewrite V, V' in Q. destruct Q as [[? ?]|[?|[_ ?]]]; lra.
Qed.
(** Nobody is told: whatever the two matrices, the check ends the same way, but for what it prints. *)
Theorem C236_unheard_refuted : forall n E E' F J J' x, computes E F J -> computes E' F J' ->
  exists p p', ncheck n E x = Ok p /\ ncheck n E' x = Ok p' /\ np_sol p = np_sol p'.
Proof.
  intros n E E' F J J' x HE HE'. destruct (C236_prints n E F J x HE) as (p & EP & S & _). destruct (C236_prints n E' F J' x HE') as (p' & EP' & S' & _).
  exists p, p'. repeat split; auto. congruence.
Qed.

Example C236_witness : let F := fun (x : nvec) (i : nat) => x 0%nat * x 0%nat + x i in let J := fun (x : nvec) (i j : nat) => (if (j =? 0)%nat then 2 * x 0%nat else 0) + (if (i =? j)%nat then 1 else 0) in
  let E := mkNe (fun x _ => F x) (fun x _ => J x) in computes E F J /\ smooth 2 F (fun _ => 3) (J (fun _ => 3)) 2.
Proof.
  cbv zeta. split; [split; reflexivity|]. intros i j Hi Hj.
  exists (fun t => (if (j =? 0)%nat then 2 * (3 + t) else 0) + (if (i =? j)%nat then 1 else 0)).
  split; [destruct (j =? 0)%nat; ring|].
  assert (L : forall k t, derivable_pt_lim (fun s => if (k =? j)%nat then 3 + s else 3) t (if (k =? j)%nat then 1 else 0)).
  { intros k t. destruct (k =? j)%nat; [|apply derivable_pt_lim_const]. replace 1 with (0 + 1) at 1 by ring. apply (derivable_pt_lim_plus (fun _ => 3) id); [apply derivable_pt_lim_const|apply derivable_pt_lim_id]. }
  split; intros t Ht.
  - unfold moved. apply (derivable_pt_lim_plus (fun s => (if (0 =? j)%nat then 3 + s else 3) * (if (0 =? j)%nat then 3 + s else 3)) (fun s => if (i =? j)%nat then 3 + s else 3)); [|apply L].
    replace (if (j =? 0)%nat then 2 * (3 + t) else 0) with ((if (0 =? j)%nat then 1 else 0) * (if (0 =? j)%nat then 3 + t else 3) + (if (0 =? j)%nat then 3 + t else 3) * (if (0 =? j)%nat then 1 else 0)).
    + apply (derivable_pt_lim_mult (fun s => if (0 =? j)%nat then 3 + s else 3) (fun s => if (0 =? j)%nat then 3 + s else 3)); apply (L 0%nat).
    + rewrite (Nat.eqb_sym 0 j). destruct (j =? 0)%nat; ring.
  - destruct (j =? 0)%nat.
    + replace (_ - _) with (2 * t) by ring. rewrite Rabs_right by lra. lra.
    + replace (_ - _) with 0 by ring. rewrite Rabs_R0. lra.
Qed.
(** and a matrix that is wrong by one in an entry is far outside of the tolerances *)
Example C236_wrong_witness : Rmax (2 / 10 ^ 7) (/ 10 ^ 5 * (Rabs 7 + 2 / 10 ^ 8)) + 2 / 10 ^ 8 < Rabs (7 - 8).
Proof.
  replace (7 - 8) with (- (1)) by ring. rewrite Rabs_Ropp, Rabs_R1, Rabs_right by lra.
  apply Rmax_case; lra.
Qed.
Print Assumptions C235_compare.
Print Assumptions C235_bound.
Print Assumptions C235_symmetric_refuted.
Print Assumptions C235_matrix.
Print Assumptions C235_sizes.
Print Assumptions C236_prints.
Print Assumptions C236_right_partial.
Print Assumptions C236_wrong.
Print Assumptions C236_steep_refuted.
Print Assumptions C236_adds_refuted.
Print Assumptions C236_unheard_refuted.
