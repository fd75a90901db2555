(** Lemmas on the eigensolver interfaces. *)
From Coq Require Import Reals.
From Coquelicot Require Import Coquelicot.
From Coq Require Import List Arith Bool Lia Lra FunctionalExtensionality.
From Verif Require Import Base BaseLemmas Lap_Model Lap_Spec.
Import ListNotations.
Open Scope R_scope.

Lemma csum_ext n f g : (forall k, (k < n)%nat -> f k = g k) -> csum n f = csum n g.
Proof. induction n as [|n IH]; intros H; cbn; auto. rewrite IH, (H n) by auto. reflexivity. Qed.
Lemma csum_scal n c f : csum n (fun k => Cmult c (f k)) = Cmult c (csum n f).
Proof. induction n as [|n IH]; cbn; [ring|]. rewrite IH. ring. Qed.
Lemma csum_scal_r n c f : csum n (fun k => Cmult (f k) c) = Cmult (csum n f) c.
Proof. induction n as [|n IH]; cbn; [ring|]. rewrite IH. ring. Qed.
Lemma csum_plus n f g : csum n (fun k => Cplus (f k) (g k)) = Cplus (csum n f) (csum n g).
Proof. induction n as [|n IH]; cbn; [ring|]. rewrite IH. ring. Qed.
Lemma csum_0 n f : (forall k, (k < n)%nat -> f k = RtoC 0) -> csum n f = RtoC 0.
Proof. induction n as [|n IH]; intros H; cbn; auto. rewrite IH, (H n) by auto. ring. Qed.
Lemma csum_swap n m f : csum n (fun i => csum m (fun j => f i j)) = csum m (fun j => csum n (fun i => f i j)).
Proof.
  induction n as [|n IH]; cbn; [symmetry; now apply csum_0|]. rewrite IH, <- csum_plus. reflexivity.
Qed.
Lemma conj_plus x y : Cconj (Cplus x y) = Cplus (Cconj x) (Cconj y).
Proof. destruct x, y. unfold Cconj, Cplus. cbn. f_equal. ring. Qed.
Lemma conj_mult x y : Cconj (Cmult x y) = Cmult (Cconj x) (Cconj y).
Proof. destruct x, y. unfold Cconj, Cmult. cbn. f_equal; ring. Qed.
Lemma conj_conj x : Cconj (Cconj x) = x.
Proof. destruct x. unfold Cconj. cbn. f_equal. ring. Qed.
Lemma conj_real x : Cconj (RtoC x) = RtoC x.
Proof. unfold Cconj, RtoC. cbn. f_equal. ring. Qed.
Lemma conj_sum n f : Cconj (csum n f) = csum n (fun k => Cconj (f k)).
Proof. induction n as [|n IH]; cbn; [apply conj_real|]. now rewrite conj_plus, IH. Qed.
(** the conjugate of an eigenvector of real matrices *)
Lemma right_conj n A B a b v : right_pair n (real_mat A) (real_mat B) a (RtoC b) v ->
  right_pair n (real_mat A) (real_mat B) (Cconj a) (RtoC b) (fun i => Cconj (v i)).
Proof.
  intros H i Hi. specialize (H i Hi). apply (f_equal Cconj) in H. rewrite !conj_mult, !conj_sum, conj_real in H.
  etransitivity; [|etransitivity; [exact H|]]; f_equal; apply csum_ext; intros j _; rewrite conj_mult; unfold real_mat; now rewrite conj_real.
Qed.
Lemma left_conj n A B a b u : left_pair n (real_mat A) (real_mat B) a (RtoC b) u ->
  left_pair n (real_mat A) (real_mat B) (Cconj a) (RtoC b) (fun i => Cconj (u i)).
Proof.
  intros H i Hi. specialize (H i Hi). apply (f_equal Cconj) in H. rewrite !conj_mult, !conj_sum, conj_real in H.
  etransitivity; [|etransitivity; [exact H|]]; f_equal; apply csum_ext; intros j _; rewrite conj_mult; unfold real_mat; now rewrite conj_real.
Qed.
Lemma right_ext n A B a b v v' : (forall i, v i = v' i) -> right_pair n A B a b v -> right_pair n A B a b v'.
Proof. intros E H i Hi. specialize (H i Hi). etransitivity; [|etransitivity; [exact H|]]; f_equal; apply csum_ext; intros; now rewrite E. Qed.
Lemma left_ext n A B a b v v' : (forall i, v i = v' i) -> left_pair n A B a b v -> left_pair n A B a b v'.
Proof. intros E H i Hi. specialize (H i Hi). etransitivity; [|etransitivity; [exact H|]]; f_equal; apply csum_ext; intros; now rewrite E. Qed.

(** the columns below k are eigenvectors *)
Definition good n A B (s : eigsol) (j : nat) : Prop :=
  right_pair n (real_mat A) (real_mat B) (alpha s j) (RtoC (beta s j)) (fun i => VR s i j) /\
  left_pair n (real_mat A) (real_mat B) (alpha s j) (RtoC (beta s j)) (fun i => VL s i j).
(** value of the eigenvalue, independent of the eigenvectors *)
Lemma pair_sign m k : (forall i, pair_col m k 1 i = (m i k, m i (S k))) /\ (forall i, pair_col m k (-1) i = Cconj (m i k, m i (S k))).
Proof. split; intros i; unfold pair_col, Cconj; cbn; f_equal; ring. Qed.
Lemma unpack_good n A B w : forall k, lapack_output n A B w k -> forall fuel s, (n - k <= fuel)%nat -> (forall j, (j < k)%nat -> good n A B s j) ->
  exists s', unpack fuel n true w k s = Ok s' /\ info_val s' = info_val s /\ (forall j, (j < n)%nat -> good n A B s' j).
Proof.
  induction 1 as [|k Hk Ei Hr Hl H IH|k Hk Ei Hr Hl H IH]; intros fuel s F G.
  - exists s. destruct fuel; cbn; rewrite Nat.leb_refl; auto.
  - destruct fuel as [|fuel]; [lia|]. cbn [unpack]. destruct (Nat.leb_spec n k); [lia|]. destruct (Req_EM_T (ri w k) 0); [|contradiction].
    destruct (IH fuel (store_real true w k s)) as (s' & E & I & G'); [lia| |exists s'; rewrite E; split; [reflexivity|split; [exact I|exact G']]].
    intros j Hj. unfold good, store_real. cbn. unfold put, putr, put_col. destruct (Nat.eqb_spec j k) as [->|N]; [auto|]. apply G. lia.
  - destruct fuel as [|fuel]; [lia|]. cbn [unpack]. destruct (Nat.leb_spec n k); [lia|]. destruct (Req_EM_T (ri w k) 0); [contradiction|].
    destruct (Nat.leb_spec n (S k)); [lia|].
    destruct (IH fuel (store_pair true w k s)) as (s' & E & I & G'); [lia| |exists s'; rewrite E; split; [reflexivity|split; [exact I|exact G']]].
    intros j Hj. unfold good, store_pair. cbn. unfold put, putr, put_col. destruct (Nat.eqb_spec j (S k)) as [->|N].
    + change (ra w k, - ri w k) with (Cconj (ra w k, ri w k)). split.
      * apply (right_ext _ _ _ _ _ (fun i => Cconj (rr w i k, rr w i (S k)))); [intros i; symmetry; apply pair_sign|]. now apply right_conj.
      * apply (left_ext _ _ _ _ _ (fun i => Cconj (rl w i k, rl w i (S k)))); [intros i; symmetry; apply pair_sign|]. now apply left_conj.
    + destruct (Nat.eqb_spec j k) as [->|N2]; [|apply G; lia]. split.
      * eapply right_ext; [|exact Hr]. intros i. symmetry. apply pair_sign.
      * eapply left_ext; [|exact Hl]. intros i. symmetry. apply pair_sign.
Qed.
(** the eigenvalues are the same with and without eigenvectors *)
Lemma unpack_values n w : forall fuel vecs k s s1, alpha s = alpha s1 -> beta s = beta s1 -> info_val s = info_val s1 ->
  match unpack fuel n vecs w k s, unpack fuel n (negb vecs) w k s1 with
  | Ok a, Ok b => alpha a = alpha b /\ beta a = beta b /\ info_val a = info_val b
  | Fault f, Fault g => f = g
  | _, _ => False end.
Proof.
  induction fuel as [|fuel IH]; intros vecs k s s1 E1 E2 E3; cbn [unpack]; destruct (n <=? k)%nat; auto.
  destruct (Req_EM_T (ri w k) 0); [apply IH; cbn [alpha beta info_val store_real store_pair]; congruence|]. destruct (n <=? S k)%nat; auto. apply IH; cbn [alpha beta info_val store_real store_pair]; congruence.
Qed.
Lemma unpack_vectors n w : forall fuel k s s', unpack fuel n false w k s = Ok s' -> VL s' = VL s /\ VR s' = VR s.
Proof.
  induction fuel as [|fuel IH]; intros k s s'; cbn [unpack]; destruct (n <=? k)%nat; [intros E; injection E as <-; auto|discriminate|intros E; injection E as <-; auto|].
  destruct (Req_EM_T (ri w k) 0); [intros E; apply IH in E; exact E|]. destruct (n <=? S k)%nat; [discriminate|].
  intros E; apply IH in E; exact E.
Qed.
Lemma unpack_info n w vecs : forall fuel k s s', unpack fuel n vecs w k s = Ok s' -> info_val s' = info_val s.
Proof.
  induction fuel as [|fuel IH]; intros k s s'; cbn [unpack]; destruct (n <=? k)%nat; [intros E; injection E as <-; auto|discriminate|intros E; injection E as <-; auto|].
  destruct (Req_EM_T (ri w k) 0); [intros E; apply IH in E; exact E|]. destruct (n <=? S k)%nat; [discriminate|].
  intros E; apply IH in E; exact E.
Qed.

(** ** scaling *)
Lemma scale_right_col n r V i j : scale_right n r V i j =
  if (j <? n)%nat then if Rlt_dec 0 (Cmod (r j j)) then Cmult (V i j) (Cinv (r j j)) else V i j else V i j.
Proof.
  revert i j. induction n as [|n IH]; intros i j; [reflexivity|]. cbn [scale_right].
  assert (Q : (if Rlt_dec 0 (Cmod (r n n)) then scale_col (scale_right n r V) n (Cinv (r n n)) else scale_right n r V) i j
    = if (j =? n)%nat then if Rlt_dec 0 (Cmod (r n n)) then Cmult (V i j) (Cinv (r n n)) else V i j else scale_right n r V i j).
  { destruct (Nat.eqb_spec j n) as [->|N].
    - assert (P : scale_right n r V i n = V i n) by (rewrite IH; now rewrite Nat.ltb_irrefl).
      destruct (Rlt_dec 0 (Cmod (r n n))); [|exact P]. unfold scale_col. now rewrite Nat.eqb_refl, P.
    - destruct (Rlt_dec 0 (Cmod (r n n))); [|reflexivity]. unfold scale_col. destruct (Nat.eqb_spec j n); [contradiction|reflexivity]. }
  rewrite Q. clear Q. destruct (Nat.eqb_spec j n) as [->|N].
  - destruct (Nat.ltb_spec n (S n)); [reflexivity|lia].
  - rewrite IH. destruct (Nat.ltb_spec j n), (Nat.ltb_spec j (S n)); try lia; reflexivity.
Qed.
Lemma inner_right n B L V a b (c : C) V' : (forall j, V' j b = Cmult (V j b) c) -> inner n B L V' a b = Cmult (inner n B L V a b) c.
Proof.
  intros H. unfold inner. rewrite <- csum_scal_r. apply csum_ext. intros i _. rewrite <- csum_scal_r. apply csum_ext. intros j _. rewrite H. ring.
Qed.
Lemma inner_left n B L V a b (c : C) L' : (forall j, L' j a = Cmult (L j a) c) -> inner n B L' V a b = Cmult (Cconj c) (inner n B L V a b).
Proof.
  intros H. unfold inner. rewrite <- csum_scal. apply csum_ext. intros i _. rewrite <- csum_scal. apply csum_ext. intros j _. rewrite H, conj_mult. ring.
Qed.
Lemma right_scale n A B a b v c : right_pair n A B a b v -> right_pair n A B a b (fun i => Cmult (v i) c).
Proof.
  intros H i Hi. specialize (H i Hi).
  assert (Q : forall M : cmat, csum n (fun j => Cmult (M i j) (Cmult (v j) c)) = Cmult (csum n (fun j => Cmult (M i j) (v j))) c).
  { intros M. rewrite <- csum_scal_r. apply csum_ext. intros. ring. }
  rewrite !Q. transitivity (Cmult (Cmult b (csum n (fun j => Cmult (A i j) (v j)))) c); [ring|]. rewrite H. ring.
Qed.
Lemma left_scale n A B a b v c : left_pair n A B a b v -> left_pair n A B a b (fun i => Cmult (v i) c).
Proof.
  intros H i Hi. specialize (H i Hi).
  assert (Q : forall M : cmat, csum n (fun j => Cmult (Cconj (Cmult (v j) c)) (M j i)) = Cmult (csum n (fun j => Cmult (Cconj (v j)) (M j i))) (Cconj c)).
  { intros M. rewrite <- csum_scal_r. apply csum_ext. intros. rewrite conj_mult. ring. }
  rewrite !Q. transitivity (Cmult (Cmult b (csum n (fun j => Cmult (Cconj (v j)) (A j i)))) (Cconj c)); [ring|]. rewrite H. ring.
Qed.
(** left and right eigenvectors of different eigenvalues *)
Lemma orthogonal n A B L V x y a b c d :
  left_pair n A B a b (fun i => L i x) -> right_pair n A B c d (fun i => V i y) -> Cmult a d <> Cmult c b -> inner n B L V x y = RtoC 0.
Proof.
  intros HL HR N.
  assert (P1 : Cmult d (inner n A L V x y) = Cmult c (inner n B L V x y)).
  { unfold inner.
    assert (Q : forall M : cmat, csum n (fun i => csum n (fun j => Cmult (Cmult (Cconj (L i x)) (M i j)) (V j y))) =
       csum n (fun i => Cmult (Cconj (L i x)) (csum n (fun j => Cmult (M i j) (V j y))))).
    { intros M. apply csum_ext. intros i _. rewrite <- csum_scal. apply csum_ext. intros. ring. }
    rewrite !Q, <- !csum_scal. apply csum_ext. intros i Hi. specialize (HR i Hi).
    transitivity (Cmult (Cconj (L i x)) (Cmult d (csum n (fun j => Cmult (A i j) (V j y))))); [ring|]. rewrite HR. ring. }
  assert (P2 : Cmult b (inner n A L V x y) = Cmult a (inner n B L V x y)).
  { unfold inner.
    assert (Q : forall M : cmat, csum n (fun i => csum n (fun j => Cmult (Cmult (Cconj (L i x)) (M i j)) (V j y))) =
       csum n (fun j => Cmult (csum n (fun i => Cmult (Cconj (L i x)) (M i j))) (V j y))).
    { intros M. rewrite csum_swap. apply csum_ext. intros i _. rewrite <- csum_scal_r. apply csum_ext. intros. ring. }
    rewrite !Q, <- !csum_scal. apply csum_ext. intros j Hj. specialize (HL j Hj).
    transitivity (Cmult (Cmult b (csum n (fun i => Cmult (Cconj (L i x)) (A i j)))) (V j y)); [ring|]. rewrite HL. ring. }
  assert (Z : Cmult (Cminus (Cmult a d) (Cmult c b)) (inner n B L V x y) = RtoC 0).
  { transitivity (Cminus (Cmult d (Cmult a (inner n B L V x y))) (Cmult b (Cmult c (inner n B L V x y)))); [ring|]. rewrite <- P1, <- P2. ring. }
  assert (M : Cminus (Cmult a d) (Cmult c b) <> RtoC 0).
  { intros Q. apply N. transitivity (Cplus (Cminus (Cmult a d) (Cmult c b)) (Cmult c b)); [ring|]. rewrite Q. ring. }
  transitivity (Cmult (Cinv (Cminus (Cmult a d) (Cmult c b))) (Cmult (Cminus (Cmult a d) (Cmult c b)) (inner n B L V x y))).
  - field. exact M.
  - rewrite Z. ring.
Qed.
Lemma mod_conj x : Cmod (Cconj x) = Cmod x.
Proof. destruct x as [a b]. unfold Cmod, Cconj. cbn. f_equal. ring. Qed.
Lemma mod_pos x : 0 < Cmod x <-> x <> RtoC 0.
Proof. split; [intros H ->; rewrite Cmod_0 in H; lra|apply Cmod_gt_0]. Qed.
(** unit length *)
Lemma unit_right_spec : forall k n V V', unit_right k n V = Ok V' ->
  forall i j, V' i j = if (j <? k)%nat then Cmult (V i j) (RtoC (/ col_norm n V j)) else V i j.
Proof.
  induction k as [|k IH]; intros n V V' E i j; cbn in E; [now injection E as <-|].
  destruct (unit_right k n V) as [V1|] eqn:E1; [|discriminate]. cbn in E. specialize (IH n V V1 E1).
  destruct (Rlt_dec 0 (col_norm n V1 k)) as [P|]; [|discriminate]. injection E as <-.
  assert (Q : col_norm n V1 k = col_norm n V k).
  { unfold col_norm. f_equal. apply sum_ext. intros m _. rewrite (IH m k). now rewrite Nat.ltb_irrefl. }
  unfold scale_col. rewrite Q. destruct (Nat.eqb_spec j k) as [->|N].
  - rewrite IH, Nat.ltb_irrefl. destruct (Nat.ltb_spec k (S k)); [reflexivity|lia].
  - rewrite IH. destruct (Nat.ltb_spec j k), (Nat.ltb_spec j (S k)); try lia; reflexivity.
Qed.
Lemma unit_right_total : forall k n V, (k <= n)%nat -> (exists V', unit_right k n V = Ok V') <-> forall j, (j < k)%nat -> 0 < col_norm n V j.
Proof.
  induction k as [|k IH]; intros n V H; [split; [intros _ j; lia|cbn; eauto]|]. cbn. split.
  - intros [V' E]. destruct (unit_right k n V) as [V1|] eqn:E1; [|discriminate]. cbn in E.
    assert (S1 := unit_right_spec k n V V1 E1). destruct (Rlt_dec 0 (col_norm n V1 k)) as [P|]; [|discriminate]. intros j Hj.
    destruct (Nat.eq_dec j k) as [->|N].
    + replace (col_norm n V k) with (col_norm n V1 k); [exact P|]. unfold col_norm. f_equal. apply sum_ext. intros m _. rewrite S1. now rewrite Nat.ltb_irrefl.
    + apply (proj1 (IH n V ltac:(lia))); [eauto|lia].
  - intros P. destruct (proj2 (IH n V ltac:(lia))) as [V1 E1]; [intros; apply P; lia|]. rewrite E1. cbn.
    assert (S1 := unit_right_spec k n V V1 E1).
    replace (col_norm n V1 k) with (col_norm n V k).
    2:{ unfold col_norm. f_equal. apply sum_ext. intros m _. rewrite S1. now rewrite Nat.ltb_irrefl. }
    destruct (Rlt_dec 0 (col_norm n V k)) as [|N]; [eauto|]. exfalso. apply N. apply P. lia.
Qed.
Lemma unit_norm n V V' : unit_right n n V = Ok V' -> forall j, (j < n)%nat -> col_norm n V' j = 1.
Proof.
  intros E j Hj. assert (P : 0 < col_norm n V j) by (apply (proj1 (unit_right_total n n V (le_n n))); eauto). assert (S1 := unit_right_spec n n V V' E).
  unfold col_norm at 1.
  rewrite (sum_ext n _ (fun i => (/ col_norm n V j)² * ((fst (V i j))² + (snd (V i j))²))).
  2:{ intros i _. rewrite S1. destruct (Nat.ltb_spec j n); [|lia]. destruct (V i j) as [x y]. unfold Cmult, RtoC, Rsqr. cbn. ring. }
  rewrite sum_scal_l, sqrt_mult_alt by apply Rle_0_sqr. rewrite sqrt_Rsqr by (left; now apply Rinv_0_lt_compat).
  change (sqrt (sum n (fun i => (fst (V i j))² + (snd (V i j))²))) with (col_norm n V j). field. lra.
Qed.
