(** Theorems about the eigensolver interfaces. *)
From Coq Require Import Reals.
From Coquelicot Require Import Coquelicot.
From Coq Require Import List Arith Bool Lia Lra FunctionalExtensionality.
From Verif Require Import Base BaseLemmas Lap_Model Lap_Spec Lap_Proofs.
Import ListNotations.
Open Scope R_scope.

(** ** C209 eigenvalues and eigenvectors of real matrices *)
(** If LAPACK keeps to its documentation, every column returned is an eigenvector for its eigenvalue. *)
Theorem C209_eigenpairs_partial : forall n A B w old, lapack_output n A B w 0 -> r_info w = 0%nat ->
  exists s al be L V, compute n true true w old = Ok s /\ get alpha s = Ok al /\ get beta s = Ok be /\ get VL s = Ok L /\ get VR s = Ok V /\
    forall j, (j < n)%nat ->
      right_pair n (real_mat A) (real_mat B) (al j) (RtoC (be j)) (fun i => V i j) /\
      left_pair n (real_mat A) (real_mat B) (al j) (RtoC (be j)) (fun i => L i j).
Proof.
  intros n A B w old H I. unfold compute. cbn [assert_].
  destruct (unpack_good n A B w 0 H n (mkEs (fun _ => RtoC 0) (fun _ => 0) (fun _ _ => RtoC 0) (fun _ _ => RtoC 0) (r_info w))) as (s & E & J & G).
  { lia. } { intros j Hj; lia. }
  cbn in J. rewrite I in J. exists s, (alpha s), (beta s), (VL s), (VR s). unfold get. rewrite J. cbn. split; [exact E|]. repeat (split; [reflexivity|]). exact G.
Qed.
(** The standard problem: the same with the identity. *)
Definition unit_mat : nat -> nat -> R := fun i j => if (i =? j)%nat then 1 else 0.
Theorem C209_standard_partial : forall n A w old, lapack_output n A unit_mat (mkRaw (ra w) (ri w) (fun _ => 1) (rl w) (rr w) (r_info w)) 0 ->
  r_info w = 0%nat ->
  exists s al V, compute_standard n true true w old = Ok s /\ get alpha s = Ok al /\ get VR s = Ok V /\
    forall i j, (i < n)%nat -> (j < n)%nat -> csum n (fun k => Cmult (RtoC (A i k)) (V k j)) = Cmult (al j) (V i j).
Proof.
  intros n A w old H I. unfold compute_standard, compute. cbn [assert_]. set (w1 := mkRaw (ra w) (ri w) (fun _ => 1) (rl w) (rr w) (r_info w)) in *.
  destruct (unpack_good n A unit_mat w1 0 H n (mkEs (fun _ => RtoC 0) (fun _ => 0) (fun _ _ => RtoC 0) (fun _ _ => RtoC 0) (r_info w))) as (s & E & J & G).
  { lia. } { intros j Hj; lia. }
  cbn in J. rewrite I in J.
  assert (Bt : forall fuel k s1 s2, unpack fuel n true w1 k s1 = Ok s2 -> (forall j, (j < k)%nat -> beta s1 j = 1) -> (k <= n)%nat -> forall j, (j < n)%nat -> beta s2 j = 1).
  { induction fuel as [|fuel IH]; intros k s1 s2 U P K j Hj; cbn [unpack] in U; destruct (Nat.leb_spec n k); try discriminate; try (injection U as <-; apply P; lia).
    destruct (Req_EM_T (ri w1 k) 0).
    - apply (IH _ _ _ U); auto. intros j' Hj'. cbn. unfold putr. destruct (Nat.eqb_spec j' k); [reflexivity|]. apply P. lia.
    - destruct (Nat.leb_spec n (S k)); [discriminate|]. apply (IH _ _ _ U); auto. intros j' Hj'. cbn. unfold putr.
      destruct (Nat.eqb_spec j' (S k)); [reflexivity|]. destruct (Nat.eqb_spec j' k); [reflexivity|]. apply P. lia. }
  exists s, (alpha s), (VR s). unfold get. rewrite J. cbn. split; [exact E|]. repeat (split; [reflexivity|]). intros i j Hi Hj.
  destruct (G j Hj) as [R1 _]. specialize (R1 i Hi). rewrite (Bt _ _ _ _ E (fun j' Hj' => ltac:(lia)) (Nat.le_0_l n) j Hj) in R1.
  rewrite Cmult_1_l in R1. unfold real_mat in R1. rewrite R1. f_equal.
  clear - Hi. induction n as [|m IH]; [lia|]. cbn. unfold unit_mat at 2. destruct (Nat.eqb_spec i m) as [->|N].
  - rewrite csum_0; [ring|]. intros k Hk. unfold unit_mat. destruct (Nat.eqb_spec m k); [lia|]. ring.
  - rewrite IH by lia. ring.
Qed.
(** Asking for eigenvectors does not change the eigenvalues. *)
Theorem C209_values : forall n w old old' s s', compute n true true w old = Ok s -> compute n true false w old' = Ok s' ->
  alpha s = alpha s' /\ beta s = beta s'.
Proof.
  intros n w old old' s s'. unfold compute. cbn [assert_]. intros E E'.
  assert (H := unpack_values n w n true 0 (mkEs (fun _ => RtoC 0) (fun _ => 0) (fun _ _ => RtoC 0) (fun _ _ => RtoC 0) (r_info w))
    (mkEs (fun _ => RtoC 0) (fun _ => 0) (VL old') (VR old') (r_info w)) eq_refl eq_refl eq_refl).
  cbn [negb] in H. cbn in E, E', H. rewrite E in H. rewrite E' in H. tauto.
Qed.
(** Nothing can be read after LAPACK failed, *)
Theorem C209_failed : forall n vecs w old s, compute n true vecs w old = Ok s -> r_info w <> 0%nat -> forall (X : Type) (field : eigsol -> X), get field s = Fault AssertFailed.
Proof.
  intros n vecs w old s E I X field. unfold compute in E. cbn [assert_] in E. apply unpack_info in E. cbn in E. unfold get. rewrite E.
  destruct (Nat.eqb_spec (r_info w) 0); [contradiction|reflexivity].
Qed.
(** but the pairs are unpacked before the failure is noticed: an imaginary part in the last place leads out of the arrays. *)
Theorem C209_failure_refuted : forall n vecs (w : raw) old, (0 < n)%nat -> (forall k, (k < n - 1)%nat -> ri w k = 0) -> ri w (n - 1) <> 0 ->
  compute n true vecs w old = Fault OutOfBounds.
Proof.
  intros n vecs w old P H N. unfold compute. cbn [assert_].
  assert (U : forall fuel k s, (k < n)%nat -> (n - k <= fuel)%nat -> unpack fuel n vecs w k s = Fault OutOfBounds); [|apply U; lia].
  induction fuel as [|fuel IH]; intros k s K F; [lia|]. cbn [unpack]. destruct (Nat.leb_spec n k); [lia|]. destruct (Nat.eq_dec k (n - 1)) as [E|E].
  - rewrite E in *. destruct (Req_EM_T (ri w (n - 1)) 0); [contradiction|]. destruct (Nat.leb_spec n (S (n - 1))); [reflexivity|lia].
  - destruct (Req_EM_T (ri w k) 0) as [|Q]; [apply IH; lia|]. exfalso. apply Q. apply H. lia.
Qed.
(** Without asking for eigenvectors those of an earlier problem are returned. *)
Theorem C209_stale_refuted : forall n w old s, compute n true false w old = Ok s -> r_info w = 0%nat -> get VR s = Ok (VR old) /\ get VL s = Ok (VL old).
Proof.
  intros n w old s E I. unfold compute in E. cbn [assert_] in E. assert (J := unpack_info _ _ _ _ _ _ _ E). apply unpack_vectors in E. cbn in E, J.
  unfold get. rewrite J, I. cbn. destruct E as [-> ->]. auto.
Qed.
(** A rotation: eigenvalues i and -i. *)
Definition rot : nat -> nat -> R := fun i j => if (i =? j)%nat then 0 else if (i =? 0)%nat then -1 else 1.
Ltac ceq := apply injective_projections; cbn; try ring.
Example C209_example : exists w, lapack_output 2 rot unit_mat w 0 /\ r_info w = 0%nat /\ ri w 0 = 1.
Proof.
  exists (mkRaw (fun _ => 0) (fun k => if (k =? 0)%nat then 1 else -1) (fun _ => 1)
     (fun i k => if (i =? k)%nat then if (k =? 0)%nat then 1 else -1 else 0) (fun i k => if (i =? k)%nat then if (k =? 0)%nat then 1 else -1 else 0) 0).
  split; [|split; reflexivity]. apply lo_pair; [lia|cbn; lra| | |constructor];
    intros i Hi; (destruct i as [|[|i]]; [| |lia]); unfold real_mat, rot, unit_mat; cbn; ceq.
Qed.

(** ** C210 scaling to an identity inner product *)
(** Real matrices: afterwards VL^H B VR is the identity, and the columns are still eigenvectors. *)
Theorem C210_real_partial : forall n A B s s', (forall j, (j < n)%nat -> good n A B s j) ->
  (forall a b, (a < n)%nat -> (b < n)%nat -> a <> b -> Cmult (alpha s a) (RtoC (beta s b)) <> Cmult (alpha s b) (RtoC (beta s a))) ->
  (forall a, (a < n)%nat -> inner n (real_mat B) (VL s) (VR s) a a <> RtoC 0) ->
  scale_real n B s = Ok s' ->
  (forall j, (j < n)%nat -> good n A B s' j) /\
  forall a b, (a < n)%nat -> (b < n)%nat -> inner n (real_mat B) (VL s') (VR s') a b = RtoC (if (a =? b)%nat then 1 else 0).
Proof.
  intros n A B s s' G D N. unfold scale_real. destruct (Nat.eqb_spec (info_val s) 0); [|discriminate]. cbn [assert_]. intros E. injection E as <-. cbn.
  set (r := inner n (real_mat B) (VL s) (VR s)) in *.
  assert (Q : forall b, (b < n)%nat -> forall i, scale_right n r (VR s) i b = Cmult (VR s i b) (Cinv (r b b))).
  { intros b Hb i. rewrite scale_right_col. destruct (Nat.ltb_spec b n); [|lia]. destruct (Rlt_dec 0 (Cmod (r b b))) as [|F]; [reflexivity|].
    exfalso. apply F. apply mod_pos. now apply N. }
  split.
  - intros j Hj. destruct (G j Hj) as [R1 L1]. split; cbn; [|exact L1].
    eapply right_ext; [|exact (right_scale _ _ _ _ _ _ (Cinv (r j j)) R1)]. intros i. cbn. now rewrite Q.
  - intros a b Ha Hb. rewrite (inner_right n (real_mat B) (VL s) (VR s) a b (Cinv (r b b))) by (intros; now apply Q).
    destruct (Nat.eqb_spec a b) as [->|Ne].
    + fold r. apply Cinv_r. now apply N.
    + destruct (G a Ha) as [_ L1]. destruct (G b Hb) as [R1 _].
      rewrite (orthogonal n (real_mat A) (real_mat B) (VL s) (VR s) a b _ _ _ _ L1 R1); [ring|]. intros F. now apply (D a b Ha Hb Ne).
Qed.
(** Complex matrices: the right eigenvectors have unit length, different ones are orthogonal, but the diagonal has modulus one only. *)
Theorem C210_complex_partial : forall n A B (be : cvec) s s',
  (forall j, (j < n)%nat -> right_pair n A B (alpha s j) (be j) (fun i => VR s i j) /\ left_pair n A B (alpha s j) (be j) (fun i => VL s i j)) ->
  (forall a b, (a < n)%nat -> (b < n)%nat -> a <> b -> Cmult (alpha s a) (be b) <> Cmult (alpha s b) (be a)) ->
  (forall a, (a < n)%nat -> inner n B (VL s) (VR s) a a <> RtoC 0) ->
  scale_complex n B s = Ok s' ->
  (forall j, (j < n)%nat -> right_pair n A B (alpha s' j) (be j) (fun i => VR s' i j) /\ left_pair n A B (alpha s' j) (be j) (fun i => VL s' i j)) /\
  (forall j, (j < n)%nat -> col_norm n (VR s') j = 1) /\
  (forall a b, (a < n)%nat -> (b < n)%nat -> a <> b -> inner n B (VL s') (VR s') a b = RtoC 0) /\
  (forall a, (a < n)%nat -> Cmod (inner n B (VL s') (VR s') a a) = 1 /\
     (inner n B (VL s') (VR s') a a = RtoC 1 <-> snd (inner n B (VL s) (VR s) a a) = 0)).
Proof.
  intros n A B be s s' G D N. unfold scale_complex. destruct (Nat.eqb_spec (info_val s) 0); [|discriminate]. cbn [assert_].
  destruct (unit_right n n (VR s)) as [V|] eqn:U; [|discriminate]. cbn [bind]. intros E. injection E as <-. cbn [alpha beta VL VR].
  assert (UV := unit_right_spec n n (VR s) V U).
  assert (Pn : forall j, (j < n)%nat -> 0 < col_norm n (VR s) j) by (apply (proj1 (unit_right_total n n (VR s) (le_n n))); eauto).
  assert (VQ : forall b, (b < n)%nat -> forall i, V i b = Cmult (VR s i b) (RtoC (/ col_norm n (VR s) b))).
  { intros b Hb i. rewrite UV. destruct (Nat.ltb_spec b n); [reflexivity|lia]. }
  assert (Rr : forall b, (b < n)%nat -> RtoC (/ col_norm n (VR s) b) <> RtoC 0).
  { intros b Hb F. apply RtoC_inj in F. assert (X := Rinv_0_lt_compat _ (Pn b Hb)). lra. }
  set (r := inner n B (VL s) V).
  assert (Nr : forall a, (a < n)%nat -> r a a <> RtoC 0).
  { intros a Ha. unfold r. rewrite (inner_right n B (VL s) (VR s) a a (RtoC (/ col_norm n (VR s) a))) by (intros; now apply VQ).
    intros F. apply (N a Ha). transitivity (Cmult (Cmult (inner n B (VL s) (VR s) a a) (RtoC (/ col_norm n (VR s) a))) (Cinv (RtoC (/ col_norm n (VR s) a)))).
    - field. now apply Rr.
    - rewrite F. ring. }
  assert (LQ : forall b, (b < n)%nat -> forall i, scale_right n r (VL s) i b = Cmult (VL s i b) (Cinv (r b b))).
  { intros b Hb i. rewrite scale_right_col. destruct (Nat.ltb_spec b n); [|lia]. destruct (Rlt_dec 0 (Cmod (r b b))) as [|F]; [reflexivity|].
    exfalso. apply F. apply mod_pos. now apply Nr. }
  assert (G' : forall j, (j < n)%nat -> right_pair n A B (alpha s j) (be j) (fun i => V i j) /\
     left_pair n A B (alpha s j) (be j) (fun i => scale_right n r (VL s) i j)).
  { intros j Hj. destruct (G j Hj) as [R1 L1]. split.
    - eapply right_ext; [|exact (right_scale _ _ _ _ _ _ (RtoC (/ col_norm n (VR s) j)) R1)]. intros i. cbn. now rewrite VQ.
    - eapply left_ext; [|exact (left_scale _ _ _ _ _ _ (Cinv (r j j)) L1)]. intros i. cbn. now rewrite LQ. }
  split; [exact G'|]. split; [exact (unit_norm n (VR s) V U)|]. split.
  - intros a b Ha Hb Ne. destruct (G' a Ha) as [_ L1]. destruct (G' b Hb) as [R1 _]. apply (orthogonal n A B _ _ a b _ _ _ _ L1 R1). intros F. now apply (D a b Ha Hb Ne).
  - intros a Ha. rewrite (inner_left n B (VL s) V a a (Cinv (r a a))) by (intros; now apply LQ). fold r. split.
    + rewrite Cmod_mult, mod_conj, Cmod_inv by now apply Nr. field. assert (X := proj2 (mod_pos _) (Nr a Ha)). lra.
    + assert (Q : r a a = Cmult (inner n B (VL s) (VR s) a a) (RtoC (/ col_norm n (VR s) a))) by (apply inner_right; intros; now apply VQ).
      assert (Sn : snd (r a a) = 0 <-> snd (inner n B (VL s) (VR s) a a) = 0).
      { rewrite Q. unfold Cmult, RtoC. cbn. rewrite Rmult_0_r, Rplus_0_l. split; [|intros ->; ring]. intros Z. apply Rmult_integral in Z.
        destruct Z as [Z|Z]; auto. assert (X := Rinv_0_lt_compat _ (Pn a Ha)). lra. }
      rewrite <- Sn. specialize (Nr a Ha). clearbody r. destruct (r a a) as [x y]. cbn [snd].
      assert (P : x * x + y * y <> 0). { intros F. apply Nr. apply injective_projections; cbn; nra. }
      unfold Cconj, Cinv, Cmult, RtoC. cbn. split.
      * intros F. injection F as F1 F2. assert (F3 : (x * x - y * y) / (x * x + y * y) = 1) by (rewrite <- F1; field; nra).
        assert (F4 : x * x - y * y = 1 * (x * x + y * y)) by (rewrite <- F3; field; exact P). nra.
      * intros ->. assert (x <> 0) by (intros ->; apply P; ring). apply injective_projections; cbn; field; nra.
Qed.
(** One by one matrices: with B = i the product is -1 instead of 1. *)
Theorem C210_complex_refuted : exists (A B : cmat) s s', right_pair 1 A B (alpha s 0%nat) (RtoC (beta s 0%nat)) (fun i => VR s i 0%nat) /\
  left_pair 1 A B (alpha s 0%nat) (RtoC (beta s 0%nat)) (fun i => VL s i 0%nat) /\ scale_complex 1 B s = Ok s' /\
  inner 1 B (VL s') (VR s') O O = RtoC (-1).
Proof.
  exists (fun _ _ => (0, 1)), (fun _ _ => (0, 1)), (mkEs (fun _ => RtoC 1) (fun _ => 1) (fun _ _ => RtoC 1) (fun _ _ => RtoC 1) 0).
  assert (Nm : col_norm 1 (fun _ _ => RtoC 1) 0 = 1).
  { unfold col_norm. cbn. replace (0 + (1² + 0²)) with 1 by (unfold Rsqr; ring). apply sqrt_1. }
  unfold scale_complex. cbn [assert_ info_val Nat.eqb unit_right bind VR]. rewrite Nm. destruct (Rlt_dec 0 1) as [P01|F]; [|exfalso; lra]. cbn [bind].
  eexists. split; [|split; [|split; [reflexivity|]]].
  - intros i Hi. cbn. ceq.
  - intros i Hi. cbn. ceq.
  - cbn [VL VR alpha beta]. set (V := scale_col (fun _ _ => RtoC 1) 0 (RtoC (/ 1))). set (r := inner 1 (fun _ _ => (0, 1)) (fun _ _ => RtoC 1) V).
    assert (R1 : r O O = (0, 1)). { unfold r, V, inner, scale_col. cbn. ceq; field. }
    assert (C1 : Cmod (0, 1) <> 0). { apply Rgt_not_eq. apply mod_pos. intros F. injection F as F. lra. }
    rewrite (inner_left 1 _ (fun _ _ => RtoC 1) V 0 0 (Cinv (r O O))).
    + fold r. rewrite R1. ceq; field.
    + intros j. rewrite scale_right_col. cbn [Nat.ltb Nat.leb]. destruct (Rlt_dec 0 (Cmod (r O O))) as [|F]; [reflexivity|].
      exfalso. apply F. rewrite R1. apply mod_pos. intros Q. injection Q as Q. lra.
Qed.
(** An infinite eigenvalue (B singular) is left unscaled. *)
Theorem C210_singular_refuted : exists A B s s', good 1 A B s O /\ VR s 0%nat 0%nat = RtoC 1 /\ scale_real 1 B s = Ok s' /\
  inner 1 (real_mat B) (VL s') (VR s') O O = RtoC 0.
Proof.
  exists (fun _ _ => 1), (fun _ _ => 0), (mkEs (fun _ => RtoC 1) (fun _ => 0) (fun _ _ => RtoC 1) (fun _ _ => RtoC 1) 0). eexists.
  split; [split; intros i Hi; cbn; ceq|]. split; [reflexivity|]. split; [reflexivity|]. unfold inner, real_mat. cbn [VL VR csum]. ceq.
Qed.
Example C210_example : exists s, good 1 (fun _ _ => 6) (fun _ _ => 2) s O /\ inner 1 (real_mat (fun _ _ => 2)) (VL s) (VR s) O O <> RtoC 0 /\ info_val s = 0%nat.
Proof.
  exists (mkEs (fun _ => RtoC 3) (fun _ => 1) (fun _ _ => RtoC 1) (fun _ _ => RtoC 1) 0). split; [split; intros i Hi; cbn; ceq|]. split; [|reflexivity].
  unfold inner, real_mat. cbn. intros F. injection F as F _. lra.
Qed.

(** ** C211 workspace *)
Theorem C211_enough_partial : forall n, (0 < n)%nat -> enough_dggev n (size_dggev n) /\ enough_dgeev n (size_dgeev n) /\ enough_zggev n (size_zggev n).
Proof. intros n H. unfold enough_dggev, enough_dgeev, enough_zggev, size_dggev, size_dgeev, size_zggev. cbn [lwork rwork ld]. lia. Qed.
(** empty matrices are refused by LAPACK, *)
Theorem C211_empty_refuted : ~ enough_dggev 0 (size_dggev 0) /\ ~ enough_dgeev 0 (size_dgeev 0) /\ ~ enough_zggev 0 (size_zggev 0).
Proof. unfold enough_dggev, enough_dgeev, enough_zggev. cbn. lia. Qed.
(** and zggevx writes behind the array of bool: everything else is large enough. *)
Theorem C211_logical_refuted : forall n, (0 < n)%nat -> ~ enough_zggevx n (size_zggevx n) /\
  enough_zggevx n (mkSz (lwork (size_zggevx n)) (rwork (size_zggevx n)) (iwork (size_zggevx n)) (4 * bwork (size_zggevx n)) (ld (size_zggevx n))).
Proof. intros n H. unfold enough_zggevx, size_zggevx. cbn [lwork rwork iwork bwork ld]. split; [intros (_ & _ & _ & F & _); lia|]. nia. Qed.

(** ** C212 eigenpairs of the large eigensolver *)
(** Hermitian problems: value and vector of SLEPc. *)
Theorem C212_hermitian : forall sol i, get_eigenpair true false i sol = Ok (ep_value (sol i), ep_re (sol i)).
Proof. reflexivity. Qed.
Theorem C212_value : forall sol i, get_eigenvalue i sol = ep_value (sol i).
Proof. reflexivity. Qed.
(** With the vector for the imaginary part that other problems ask for, a null pointer is dereferenced, for every problem and every pair; *)
Theorem C212_imaginary_refuted : forall sol i, get_eigenpair false true i sol = Fault NullDeref.
Proof. reflexivity. Qed.
(** without it the imaginary part is dropped: what is returned need not be an eigenvector for the value returned. *)
Theorem C212_dropped_refuted : exists (A : nat -> nat -> R) sol v x,
  right_pair 2 (real_mat A) (real_mat unit_mat) (ep_value (sol 0%nat)) (RtoC 1) (fun j => (ep_re (sol 0%nat) j, ep_im (sol 0%nat) j)) /\
  get_eigenpair false false 0 sol = Ok (v, x) /\
  forall a : C, ~ right_pair 2 (real_mat A) (real_mat unit_mat) a (RtoC 1) (fun j => RtoC (x j)).
Proof.
  exists rot, (fun _ => mkEp (0, 1) (fun i => if (i =? 0)%nat then 1 else 0) (fun i => if (i =? 0)%nat then 0 else -1)). eexists _, _.
  split; [|split; [reflexivity|]].
  - intros i Hi. destruct i as [|[|i]]; [| |lia]; unfold real_mat, rot, unit_mat; cbn; ceq.
  - intros a H. specialize (H 1%nat (le_n 2)). unfold real_mat, rot, unit_mat in H. cbn in H. injection H as H1 H2. lra.
Qed.

Print Assumptions C209_eigenpairs_partial.
Print Assumptions C209_standard_partial.
Print Assumptions C209_values.
Print Assumptions C209_failed.
Print Assumptions C209_failure_refuted.
Print Assumptions C209_stale_refuted.
Print Assumptions C210_real_partial.
Print Assumptions C210_complex_partial.
Print Assumptions C210_complex_refuted.
Print Assumptions C210_singular_refuted.
Print Assumptions C211_enough_partial.
Print Assumptions C211_empty_refuted.
Print Assumptions C211_logical_refuted.
Print Assumptions C212_hermitian.
Print Assumptions C212_value.
Print Assumptions C212_imaginary_refuted.
Print Assumptions C212_dropped_refuted.
