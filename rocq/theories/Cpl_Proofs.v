From Coq Require Import Reals List Arith Bool Lia Lra Permutation.
From Verif Require Import Base RBool Cpl_Model Cpl_Spec.
Import ListNotations.
Open Scope R_scope.

(** maps *)
Lemma put_new : forall A k (v : A) l, ~ In k (map fst l) -> put k v l = l ++ [(k, v)].
Proof.
  induction l as [|[j w] l IH]; intros H; cbn; auto.
  destruct (Nat.eqb_spec j k); [subst; exfalso; apply H; left; reflexivity|].
  f_equal. apply IH. intros X. apply H. right. exact X.
Qed.
Lemma put_keys : forall A k (v : A) l x, In x (map fst (put k v l)) <-> x = k \/ In x (map fst l).
Proof.
  induction l as [|[j w] l IH]; intros x; cbn; [intuition|].
  destruct (Nat.eqb_spec j k); cbn; [subst; intuition|]. rewrite IH. intuition.
Qed.
Lemma put_nodup : forall A k (v : A) l, NoDup (map fst l) -> NoDup (map fst (put k v l)).
Proof.
  induction l as [|[j w] l IH]; intros H; cbn; [repeat constructor; auto|].
  inversion H; subst. destruct (Nat.eqb_spec j k); cbn; [subst; constructor; auto|].
  constructor; [|apply IH; assumption]. rewrite put_keys. intros [X|X]; congruence.
Qed.
Lemma put_find : forall A k (v : A) l, NoDup (map fst l) -> forall e, In e (put k v l) <-> e = (k, v) \/ (In e l /\ fst e <> k).
Proof.
  induction l as [|[j w] l IH]; intros H e; cbn; [intuition|]. inversion H; subst.
  destruct (Nat.eqb_spec j k); cbn.
  - subst. split; [intros [X|X]; [left; congruence|]|].
    + right. split; [right; assumption|]. intros E. apply H2. rewrite <- E. apply in_map. exact X.
    + intros [X|[[X|X] N]]; [left; congruence|subst; cbn in N; congruence|right; exact X].
  - rewrite IH by assumption. split.
    + intros [X|[X|[X N]]]; [right; split; [left; exact X|subst; cbn; congruence]|left; exact X|right; split; [right; exact X|exact N]].
    + intros [X|[[X|X] N]]; [right; left; exact X|left; exact X|right; right; split; assumption].
Qed.
Lemma lsum_app : forall a b, lsum (a ++ b) = lsum a + lsum b.
Proof. induction a as [|x a IH]; intros b; cbn; [unfold lsum; lra|fold lsum]. change (x + lsum (a ++ b) = x + lsum a + lsum b). rewrite IH. ring. Qed.
Definition row_val (u : nat -> R) (row : crow) : R := lsum (map (fun e => snd e * u (fst e)) row).
Lemma row_val_put : forall u k v row, ~ In k (map fst row) -> row_val u (put k v row) = row_val u row + v * u k.
Proof.
  intros u k v row H. unfold row_val. rewrite put_new by exact H. rewrite map_app, lsum_app. cbn. unfold lsum. cbn. ring.
Qed.

Section P.
Variable pos : nat -> nat -> R.
Variable dofs : nat -> list nat.
Variable d : nat -> nat -> nat.
Hypothesis six6 : six dofs d.

Lemma at_six : forall n i, (i < 6)%nat -> at_ (dofs n) i = Ok (d n i).
Proof.
  intros n i H. unfold at_. rewrite (proj1 six6).
  do 6 (destruct i as [|i]; [reflexivity|]). lia.
Qed.
Definition term (s m : nat) (u : nat -> R) (i : nat) : R :=
  u (d m i) + (if (i <? 3)%nat then sgn i * cross (rot_of d u m) (rel pos s m) i else 0).
Definition keys_of (ms : list nat) : list nat := flat_map (fun m => map (d m) (seq 0 6)) ms.
Lemma key_other : forall m i ms, (i < 6)%nat -> ~ In m ms -> ~ In (d m i) (keys_of ms).
Proof.
  intros m i ms Hi H X. unfold keys_of in X. apply in_flat_map in X. destruct X as [m' [M X]].
  apply in_map_iff in X. destruct X as [i' [E I]]. apply in_seq in I.
  destruct (proj2 six6 m' i' m i ltac:(lia) Hi E). subst. contradiction.
Qed.
Lemma key_same : forall m i i', (i < 6)%nat -> (i' < 6)%nat -> i <> i' -> d m i <> d m i'.
Proof. intros m i i' A B N E. destruct (proj2 six6 _ _ _ _ A B E). contradiction. Qed.

Lemma entries_ok : forall s m w i row, (i < 6)%nat -> (forall j, (j < 6)%nat -> ~ In (d m j) (map fst row)) ->
  exists row', master_entries pos dofs s m w i row = Ok row' /\
    (forall u, row_val u row' = row_val u row + w * term s m u i) /\
    (forall k, In k (map fst row') -> In k (map fst row) \/ In k (map (d m) (seq 0 6))).
Proof.
  intros s m w i row Hi Hn. unfold master_entries. rewrite at_six by exact Hi. cbn [bind].
  assert (D : forall j k, (j < 6)%nat -> (k < 6)%nat -> j <> k -> d m j <> d m k) by (intros; apply key_same; assumption).
  assert (K : forall j, (j < 6)%nat -> In (d m j) (map (d m) (seq 0 6))) by (intros; apply in_map; apply in_seq; lia).
  Ltac kk := let X := fresh in intros X; rewrite ?put_keys in X; repeat destruct X as [X|X]; match goal with
    | N : forall j, (j < 6)%nat -> ~ _, D : forall j k, (j < 6)%nat -> (k < 6)%nat -> j <> k -> _ |- _ => revert X; first [apply D; lia|apply N; lia] end.
  destruct i as [|[|[|i]]].
  - rewrite !at_six by lia. cbn [bind]. eexists. split; [reflexivity|]. split.
    + intros u. rewrite !row_val_put; try kk.
      unfold term. cbn. unfold rot_of, rel. cbn. ring.
    + intros k. rewrite !put_keys. intros [X|[X|[X|X]]]; subst; auto; right; apply K; lia.
  - rewrite !at_six by lia. cbn [bind]. eexists. split; [reflexivity|]. split.
    + intros u. rewrite !row_val_put; try kk.
      unfold term. cbn. unfold rot_of, rel. cbn. ring.
    + intros k. rewrite !put_keys. intros [X|[X|[X|X]]]; subst; auto; right; apply K; lia.
  - rewrite !at_six by lia. cbn [bind]. eexists. split; [reflexivity|]. split.
    + intros u. rewrite !row_val_put; try kk.
      unfold term. cbn. unfold rot_of, rel. cbn. ring.
    + intros k. rewrite !put_keys. intros [X|[X|[X|X]]]; subst; auto; right; apply K; lia.
  - eexists. split; [reflexivity|]. split.
    + intros u. rewrite row_val_put by (apply Hn; exact Hi). unfold term. cbn. ring.
    + intros k. rewrite put_keys. intros [X|X]; subst; auto; right; apply K; exact Hi.
Qed.
Lemma row_ok : forall s w i ms row, (i < 6)%nat -> NoDup ms -> (forall m j, In m ms -> (j < 6)%nat -> ~ In (d m j) (map fst row)) ->
  exists row', row_of pos dofs s ms w i row = Ok row' /\
    (forall u, row_val u row' = row_val u row + mean ms w (fun m => term s m u i)).
Proof.
  induction ms as [|m ms IH]; intros row Hi N Hn; cbn [row_of].
  - exists row. split; [reflexivity|]. intros u. unfold mean. cbn. ring.
  - inversion N; subst. destruct (entries_ok s m (w m) i row Hi (fun j J => Hn m j (or_introl eq_refl) J)) as [r1 [E [V K]]].
    rewrite E. cbn [bind]. destruct (IH r1 Hi H2) as [r2 [E2 V2]].
    { intros m' j M J X. destruct (K _ X) as [Y|Y]; [exact (Hn m' j (or_intror M) J Y)|].
      apply in_map_iff in Y. destruct Y as [j' [Y J']]. apply in_seq in J'.
      destruct (proj2 six6 m j' m' j ltac:(lia) J Y). subst. contradiction. }
    exists r2. split; [exact E2|]. intros u. rewrite V2, V. unfold mean. cbn. fold (lsum (map (fun m0 => w m0 * term s m0 u i) ms)). ring.
Qed.
(** the rows of one slave *)
Lemma rows_ok : forall s ms n i, NoDup ms -> (i + n <= 6)%nat ->
  exists l, rows_from pos dofs s ms i n = Ok l /\ tied l = map (d s) (seq i n) /\
    (forall c, In c l -> snd c = 0) /\
    (forall u, (forall c, In c l -> holds u c) <->
       (forall j, (i <= j < i + n)%nat -> u (d s j) = mean ms (weight pos s ms) (fun m => term s m u j))).
Proof.
  induction n as [|n IH]; intros i N H; cbn [rows_from].
  - exists []. split; [reflexivity|]. split; [reflexivity|]. split; [intros c []|]. intros u. split; [intros _ j J; lia|intros _ c []].
  - rewrite at_six by lia. cbn [bind].
    destruct (row_ok s (weight pos s ms) i ms [] ltac:(lia) N ltac:(intros m j M J [])) as [r [E V]]. rewrite E. cbn [bind].
    destruct (IH (S i) N ltac:(lia)) as [l [E2 [K [Z U]]]]. rewrite E2. cbn [bind].
    eexists. split; [reflexivity|]. split; [unfold tied; cbn [map seq fst]; f_equal; exact K|]. split.
    { intros c [C|C]; [subst; reflexivity|apply Z; exact C]. }
    intros u. assert (H0 : holds u (d s i, r, 0) <-> u (d s i) = mean ms (weight pos s ms) (fun m => term s m u i)).
    { unfold holds. fold (row_val u r). rewrite V. unfold row_val. cbn. split; intros X; lra. }
    split.
    + intros A j J. destruct (Nat.eq_dec j i).
      * subst. apply H0. apply A. left. reflexivity.
      * apply (proj1 (U u)); [intros c C; apply A; right; exact C|lia].
    + intros A c [C|C].
      * subst. apply H0. apply A. lia.
      * apply (proj2 (U u)); [intros j J; apply A; lia|exact C].
Qed.
End P.

(** weights *)
Section W.
Variable pos : nat -> nat -> R.
Lemma csum_lsum : forall s ms a, fold_left (fun x m => x + closeness pos s m) ms a = a + lsum (map (closeness pos s) ms).
Proof. induction ms as [|m ms IH]; intros a; cbn; [unfold lsum; cbn; ring|]. rewrite IH. fold (lsum (map (closeness pos s) ms)). ring. Qed.
Lemma close_pos : forall s m, 0 < closeness pos s m.
Proof. intros. apply exp_pos. Qed.
Lemma lsum_close : forall s ms, ms <> [] -> 0 < lsum (map (closeness pos s) ms).
Proof.
  intros s ms. induction ms as [|m ms IH]; intros H; [congruence|]. cbn. fold (lsum (map (closeness pos s) ms)).
  pose proof (close_pos s m). destruct ms as [|m' ms]; [cbn; lra|]. specialize (IH ltac:(discriminate)). lra.
Qed.
Lemma csum_pos : forall s ms, ms <> [] -> 0 < closeness_sum pos s ms.
Proof. intros s ms H. unfold closeness_sum. rewrite csum_lsum, Rplus_0_l. apply lsum_close. exact H. Qed.
Lemma weights_one : forall s ms, ms <> [] -> lsum (map (weight pos s ms) ms) = 1.
Proof.
  intros s ms H. assert (E : forall l, lsum (map (weight pos s ms) l) = lsum (map (closeness pos s) l) / closeness_sum pos s ms).
  { induction l as [|m l IH]; cbn; [unfold Rdiv; ring|].
    fold (lsum (map (weight pos s ms) l)) (lsum (map (closeness pos s) l)). rewrite IH. unfold weight, Rdiv. ring. }
  rewrite E. unfold closeness_sum. rewrite csum_lsum, Rplus_0_l. pose proof (lsum_close s ms H). field. lra.
Qed.
End W.
Lemma mean_ext : forall ms w f g, (forall m, In m ms -> f m = g m) -> mean ms w f = mean ms w g.
Proof. intros. unfold mean. f_equal. apply map_ext_in. intros m M. rewrite H by exact M. reflexivity. Qed.
Lemma mean_plus : forall ms w f g, mean ms w (fun m => f m + g m) = mean ms w f + mean ms w g.
Proof. induction ms as [|m ms IH]; intros; unfold mean in *; cbn; [ring|]. specialize (IH w f g). unfold lsum in IH. rewrite IH. ring. Qed.
Lemma mean_scal : forall ms w f a, mean ms w (fun m => a * f m) = a * mean ms w f.
Proof. induction ms as [|m ms IH]; intros; unfold mean in *; cbn; [ring|]. specialize (IH w f a). unfold lsum in IH. rewrite IH. ring. Qed.
Lemma mean_const : forall ms w a, lsum (map w ms) = 1 -> mean ms w (fun _ => a) = a.
Proof.
  intros ms w a H. transitivity (a * lsum (map w ms)); [|rewrite H; ring]. clear H. unfold mean.
  induction ms as [|m ms IH]; cbn; [ring|]. unfold lsum in IH. rewrite IH. ring.
Qed.
