(** Proofs about the material cards: derivatives. *)
From Coquelicot Require Import Coquelicot.
From Coq Require Import List Arith Bool Reals Lra Lia.
From Verif Require Import Base RBool Mat_Model Mat_Spec Mat_Proofs Mat_Proofs2.
Import ListNotations.
Open Scope R_scope.

Lemma mat_deriv_intro (M : R -> outcome (mat R)) (t : R) (r c : nat) (F : R -> nat -> nat -> R) (d : mat R) :
  locally t (fun s => M s = Ok (mkMat r c (F s))) -> rows d = r -> cols d = c ->
  (forall i j, (i < r)%nat -> (j < c)%nat -> is_derive (fun s => F s i j) t (ent d i j)) -> mat_deriv M t (Ok d).
Proof.
  intros L Hr Hc D. exists d. split; [reflexivity|]. split.
  - eapply filter_imp; [|exact L]. intros s E. exists (mkMat r c (F s)). rewrite E. cbn [rows cols]. auto.
  - intros i j Hi Hj. rewrite Hr in Hi. rewrite Hc in Hj.
    apply is_derive_ext_loc with (f := fun s => F s i j); [|auto].
    eapply filter_imp; [|exact L]. intros s E. rewrite E. reflexivity.
Qed.
Lemma loc_nz (f : R -> R) (t : R) : ex_derive f t -> f t <> 0 -> locally t (fun s => f s <> 0).
Proof.
  intros Hd Hn. apply ex_derive_continuous in Hd. apply (Hd (fun y => y <> 0)). apply (open_neq 0 (f t)). auto.
Qed.
Lemma guard_loc {A} (fs : list (R -> R)) (k : R -> outcome A) (t : R) :
  Forall (fun f => ex_derive f t /\ f t <> 0) fs -> locally t (fun s => guard (map (fun f => f s) fs) (k s) = k s).
Proof.
  induction 1 as [|f fs [D N] _ IH]; cbn [map guard].
  - apply filter_forall. reflexivity.
  - eapply filter_imp; [|apply filter_and; [apply (loc_nz f t D N)|exact IH]].
    intros s [Q1 Q2]. cbn. destruct (reqb (f s) 0) eqn:E; [apply reqb_true in E; contradiction|auto].
Qed.

Section Paths.
Variable P : path.
Variable t : R.
Variable d : props.
Hypothesis dP : path_deriv P t d.
Let v := at_ P t.

Lemma dex x : ex_derive (P x) t.
Proof. exists (d x). apply dP. Qed.
Lemma dval x : Derive (fun s => P x s) t = d x.
Proof. apply is_derive_unique, dP. Qed.
(** Derivative of an expression in the properties. *)
Ltac der :=
  auto_derive; [repeat split; auto using dex | repeat rewrite dval; unfold v, at_ in *; try (field; repeat split; assumption)].
Ltac exd := auto_derive; repeat split; auto using dex.

Lemma const_d (c : R) : is_derive (fun _ : R => c) t 0.
Proof. apply @is_derive_const. Qed.

Lemma iso_K1_deriv : 1 + v nu_ <> 0 -> mat_deriv (fun s => iso_K1 (at_ P s)) t (iso_K1_d v d).
Proof.
  intros H.  unfold v in *. unfold at_ in *.
  unfold iso_K1_d, at_. cbv zeta. rewrite guard_ok by (nz; assumption). mkred.
  eapply (mat_deriv_intro _ _ 2 2 (fun s => upds ([W 0 0 (P E_ s); W 1 1 (P E_ s / 2 / (1 + P nu_ s))]) (fun _ _ => 0))); try reflexivity.
  - eapply filter_imp; [|apply (guard_loc [fun s => 1 + P nu_ s] (fun s => mk 2 2 ([W 0 0 (P E_ s); W 1 1 (P E_ s / 2 / (1 + P nu_ s))])) t)].
    + intros s Q. unfold iso_K1, at_. cbv zeta. cbn [map] in Q. rewrite Q. apply mk_eq. reflexivity.
    + nz; (split; [exd|assumption]).
  - intros i j Hi Hj. idx2 i; idx2 j; comp; der.
Qed.
Lemma iso_K3_deriv : 1 - v nu_ - 2 * v nu_ * v nu_ <> 0 -> mat_deriv (fun s => iso_K3 (at_ P s)) t (iso_K3_d v d).
Proof.
  intros H. assert (A : 1 + v nu_ <> 0) by (intros Z; apply H; replace (1 - v nu_ - 2 * v nu_ * v nu_) with ((1 + v nu_) * (1 - 2 * v nu_)) by ring; rewrite Z; ring). unfold v in *. unfold at_ in *.
  unfold iso_K3_d, at_. cbv zeta. rewrite guard_ok by (nz; assumption). mkred.
  eapply (mat_deriv_intro _ _ 6 6 (fun s => upds (direct 3 (P E_ s * (1 - P nu_ s) / (1 - P nu_ s - 2 * P nu_ s * P nu_ s)) (P E_ s * P nu_ s / (1 - P nu_ s - 2 * P nu_ s * P nu_ s)) ++ diag 3 3 (P E_ s / 2 / (1 + P nu_ s))) (fun _ _ => 0))); try reflexivity.
  - eapply filter_imp; [|apply (guard_loc [fun s => 1 - P nu_ s - 2 * P nu_ s * P nu_ s; fun s => 1 + P nu_ s] (fun s => mk 6 6 (direct 3 (P E_ s * (1 - P nu_ s) / (1 - P nu_ s - 2 * P nu_ s * P nu_ s)) (P E_ s * P nu_ s / (1 - P nu_ s - 2 * P nu_ s * P nu_ s)) ++ diag 3 3 (P E_ s / 2 / (1 + P nu_ s)))) t)].
    + intros s Q. unfold iso_K3, at_. cbv zeta. cbn [map] in Q. rewrite Q. apply mk_eq. reflexivity.
    + nz; (split; [exd|assumption]).
  - intros i j Hi Hj. idx6 i; idx6 j; comp; der.
Qed.
Lemma iso_K2s_deriv : 1 - v nu_ * v nu_ <> 0 -> mat_deriv (fun s => iso_K2 true (at_ P s)) t (iso_K2_d true v d).
Proof.
  intros H. assert (A : 1 + v nu_ <> 0) by (intros Z; apply H; replace (1 - v nu_ * v nu_) with ((1 + v nu_) * (1 - v nu_)) by ring; rewrite Z; ring). unfold v in *. unfold at_ in *.
  unfold iso_K2_d, at_. cbv zeta. rewrite guard_ok by (nz; assumption). mkred.
  eapply (mat_deriv_intro _ _ 3 3 (fun s => upds (direct 2 (P E_ s / (1 - P nu_ s * P nu_ s)) (P E_ s * P nu_ s / (1 - P nu_ s * P nu_ s)) ++ [W 2 2 (P E_ s / 2 / (1 + P nu_ s))]) (fun _ _ => 0))); try reflexivity.
  - eapply filter_imp; [|apply (guard_loc [fun s => 1 - P nu_ s * P nu_ s; fun s => 1 + P nu_ s] (fun s => mk 3 3 (direct 2 (P E_ s / (1 - P nu_ s * P nu_ s)) (P E_ s * P nu_ s / (1 - P nu_ s * P nu_ s)) ++ [W 2 2 (P E_ s / 2 / (1 + P nu_ s))])) t)].
    + intros s Q. unfold iso_K2, at_. cbv zeta. cbn [map] in Q. rewrite Q. apply mk_eq. reflexivity.
    + nz; (split; [exd|assumption]).
  - intros i j Hi Hj. idx3 i; idx3 j; comp; der.
Qed.
Lemma iso_K2e_deriv : (1 + v nu_) * (1 - 2 * v nu_) <> 0 -> mat_deriv (fun s => iso_K2 false (at_ P s)) t (iso_K2_d false v d).
Proof.
  intros H. assert (A : 1 + v nu_ <> 0) by (intros Z; apply H; rewrite Z; ring).
  assert (B : 1 - 2 * v nu_ <> 0) by (intros Z; apply H; rewrite Z; ring).
  assert (C : 2 * v nu_ * v nu_ + v nu_ - 1 <> 0) by (intros Z; apply H; replace ((1 + v nu_) * (1 - 2 * v nu_)) with (- (2 * v nu_ * v nu_ + v nu_ - 1)) by ring; rewrite Z; ring). unfold v in *. unfold at_ in *.
  unfold iso_K2_d, at_. cbv zeta. rewrite guard_ok by (nz; assumption). mkred.
  eapply (mat_deriv_intro _ _ 3 3 (fun s => upds (direct 2 (P E_ s * (1 - P nu_ s) / ((1 + P nu_ s) * (1 - 2 * P nu_ s))) (P E_ s * P nu_ s / ((1 + P nu_ s) * (1 - 2 * P nu_ s))) ++ [W 2 2 (P E_ s / 2 / (1 + P nu_ s))]) (fun _ _ => 0))); try reflexivity.
  - eapply filter_imp; [|apply (guard_loc [fun s => (1 + P nu_ s) * (1 - 2 * P nu_ s); fun s => 1 + P nu_ s] (fun s => mk 3 3 (direct 2 (P E_ s * (1 - P nu_ s) / ((1 + P nu_ s) * (1 - 2 * P nu_ s))) (P E_ s * P nu_ s / ((1 + P nu_ s) * (1 - 2 * P nu_ s))) ++ [W 2 2 (P E_ s / 2 / (1 + P nu_ s))])) t)].
    + intros s Q. unfold iso_K2, at_. cbv zeta. cbn [map] in Q. rewrite Q. apply mk_eq. reflexivity.
    + nz; (split; [exd|assumption]).
  - intros i j Hi Hj. idx3 i; idx3 j; comp; der.
Qed.

(** Matrices without divisions. *)
Lemma mat_deriv_mk r c (L : R -> list (nat * nat * R)) (m : mat R) (M : R -> outcome (mat R)) :
  (forall s, M s = mk r c (L s)) -> (forall s, forallb (inb r c) (L s) = true) -> rows m = r -> cols m = c ->
  (forall i j, (i < r)%nat -> (j < c)%nat -> is_derive (fun s => upds (L s) (fun _ _ => 0) i j) t (ent m i j)) ->
  mat_deriv M t (Ok m).
Proof.
  intros HM B Hr Hc D. eapply (mat_deriv_intro _ _ r c (fun s => upds (L s) (fun _ _ => 0))); auto.
  apply filter_forall. intros s. rewrite HM. apply mk_eq. auto.
Qed.
Lemma inertia3_deriv : mat_deriv (fun s => inertia3 (at_ P s)) t (inertia3_d d).
Proof.
  unfold inertia3_d. mkred. apply (mat_deriv_mk 3 3 (fun s => diag 0 3 (P rho_ s))); try reflexivity.
  intros i j Hi Hj. idx3 i; idx3 j; comp; der.
Qed.
Lemma iso_exp_deriv n : dim_ok n = true -> mat_deriv (fun s => iso_exp n (at_ P s)) t (iso_exp_d n d).
Proof.
  intros Hn. assert (Q : n = 1%nat \/ n = 2%nat \/ n = 3%nat).
  { unfold dim_ok in Hn. destruct n as [|[|[|[|n]]]]; cbn in Hn; auto; discriminate. }
  unfold iso_exp_d. destruct Q as [->|[->| ->]]; cbn [exp_rows seq map]; mkred.
  - apply (mat_deriv_mk 2 1 (fun s => [W 0 0 (P alpha_ s)])); try reflexivity.
    intros i j Hi Hj. destruct j as [|j]; [|exfalso; lia]. idx2 i; comp; der.
  - apply (mat_deriv_mk 3 1 (fun s => [W 0 0 (P alpha_ s); W 1 0 (P alpha_ s)])); try reflexivity.
    intros i j Hi Hj. destruct j as [|j]; [|exfalso; lia]. idx3 i; comp; der.
  - apply (mat_deriv_mk 6 1 (fun s => [W 0 0 (P alpha_ s); W 1 0 (P alpha_ s); W 2 0 (P alpha_ s)])); try reflexivity.
    intros i j Hi Hj. destruct j as [|j]; [|exfalso; lia]. idx6 i; comp; der.
Qed.
Lemma cap_deriv : mat_deriv (fun s => cap (at_ P s)) t (cap_d v d).
Proof.
  unfold cap_d. mkred. apply (mat_deriv_mk 1 1 (fun s => [W 0 0 (P cp_ s * P rho_ s)])); try reflexivity.
  intros i j Hi Hj. destruct i as [|i]; [|exfalso; lia]. destruct j as [|j]; [|exfalso; lia]. comp. der.
Qed.
Lemma iso_cond_deriv n : mat_deriv (fun s => iso_cond n (at_ P s)) t (iso_cond_d n d).
Proof.
  unfold iso_cond_d. eapply (mat_deriv_intro _ _ n n (fun s i j => (if Nat.eqb i j then 1 else 0) * P k_ s)); try reflexivity.
  - apply filter_forall. intros s. reflexivity.
  - intros i j Hi Hj. cbn. destruct (Nat.eqb i j); der.
Qed.
Lemma ort_K1_deriv : mat_deriv (fun s => ort_K1 (at_ P s)) t (ort_K1_d d).
Proof.
  unfold ort_K1_d. mkred. apply (mat_deriv_mk 2 2 (fun s => [W 0 0 (P E11_ s); W 1 1 (P G12_ s)])); try reflexivity.
  intros i j Hi Hj. idx2 i; idx2 j; comp; der.
Qed.
Lemma ort_shear_deriv : mat_deriv (fun s => ort_shear (at_ P s)) t (ort_shear_d d).
Proof.
  unfold ort_shear_d. mkred. apply (mat_deriv_mk 2 2 (fun s => [W 0 0 (P G12_ s); W 1 1 (P G12_ s)])); try reflexivity.
  intros i j Hi Hj. idx2 i; idx2 j; comp; der.
Qed.
Lemma ort_exp_deriv n : dim_ok n = true -> mat_deriv (fun s => ort_exp n (at_ P s)) t (ort_exp n d).
Proof.
  intros Hn. assert (Q : n = 1%nat \/ n = 2%nat \/ n = 3%nat).
  { unfold dim_ok in Hn. destruct n as [|[|[|[|n]]]]; cbn in Hn; auto; discriminate. }
  unfold ort_exp at 2. destruct Q as [->|[->| ->]]; cbn [exp_rows seq map alpha_of]; mkred.
  - apply (mat_deriv_mk 2 1 (fun s => [W 0 0 (P alpha11_ s)])); try reflexivity.
    intros i j Hi Hj. destruct j as [|j]; [|exfalso; lia]. idx2 i; comp; der.
  - apply (mat_deriv_mk 3 1 (fun s => [W 0 0 (P alpha11_ s); W 1 0 (P alpha22_ s)])); try reflexivity.
    intros i j Hi Hj. destruct j as [|j]; [|exfalso; lia]. idx3 i; comp; der.
  - apply (mat_deriv_mk 6 1 (fun s => [W 0 0 (P alpha11_ s); W 1 0 (P alpha22_ s); W 2 0 (P alpha33_ s)])); try reflexivity.
    intros i j Hi Hj. destruct j as [|j]; [|exfalso; lia]. idx6 i; comp; der.
Qed.
Lemma ort_cond_deriv n : dim_ok n = true -> mat_deriv (fun s => ort_cond n (at_ P s)) t (ort_cond n d).
Proof.
  intros Hn. assert (Q : n = 1%nat \/ n = 2%nat \/ n = 3%nat).
  { unfold dim_ok in Hn. destruct n as [|[|[|[|n]]]]; cbn in Hn; auto; discriminate. }
  unfold ort_cond at 2. destruct Q as [->|[->| ->]]; cbn [exp_rows seq map k_of]; mkred.
  - apply (mat_deriv_mk 1 1 (fun s => [W 0 0 (P k11_ s)])); try reflexivity.
    intros i j Hi Hj. destruct j as [|j]; [|exfalso; lia]. destruct i as [|i]; [|exfalso; lia]. comp; der.
  - apply (mat_deriv_mk 2 2 (fun s => [W 0 0 (P k11_ s); W 1 1 (P k22_ s)])); try reflexivity.
    intros i j Hi Hj. idx2 i; idx2 j; comp; der.
  - apply (mat_deriv_mk 3 3 (fun s => [W 0 0 (P k11_ s); W 1 1 (P k22_ s); W 2 2 (P k33_ s)])); try reflexivity.
    intros i j Hi Hj. idx3 i; idx3 j; comp; der.
Qed.
End Paths.
