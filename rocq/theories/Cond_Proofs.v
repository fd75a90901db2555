(** Proofs about the condensation. *)
From Coq Require Import List Arith Lia Bool Reals Lra Permutation Sorted.
From Verif Require Import Base BaseLemmas RBool Cond_Model Cond_Spec.
Import ListNotations.
Open Scope nat_scope.

(** ** Sorting *)
Lemma insert_perm : forall x l, Permutation (insert x l) (x :: l).
Proof.
  induction l as [|y t IH]; simpl; auto. destruct (x <=? y); auto.
  eapply perm_trans; [apply perm_skip, IH|apply perm_swap].
Qed.
Lemma sort_perm : forall l, Permutation (sort l) l.
Proof.
  induction l as [|x t IH]; simpl; auto.
  eapply perm_trans; [apply insert_perm|]. now apply perm_skip.
Qed.
Lemma insert_sorted : forall x l, StronglySorted le l -> StronglySorted le (insert x l).
Proof.
  induction l as [|y t IH]; intro H; simpl; [repeat constructor|].
  inversion H as [|? ? Ht Hy]; subst. rewrite Forall_forall in Hy.
  destruct (x <=? y) eqn:E.
  - apply Nat.leb_le in E. constructor; auto. constructor; auto.
    apply Forall_forall. intros z Hz. specialize (Hy z Hz). lia.
  - apply Nat.leb_gt in E. constructor; auto. apply Forall_forall. intros z Hz.
    apply (Permutation_in _ (insert_perm x t)) in Hz. destruct Hz as [<-|Hz]; [lia|auto].
Qed.
Lemma sort_sorted : forall l, StronglySorted le (sort l).
Proof. induction l; simpl; [constructor|]. now apply insert_sorted. Qed.
Lemma sorted_strict : forall l, StronglySorted le l -> NoDup l -> StronglySorted lt l.
Proof.
  induction l as [|x t IH]; intros S N; constructor; inversion S; inversion N; subst; auto.
  apply Forall_forall. intros z Hz. rewrite Forall_forall in H2. specialize (H2 z Hz).
  assert (x <> z) by (intro; subst; contradiction). lia.
Qed.

(** ** The partition *)
Definition dofs (e : elem) (i : nat) : list nat := map (fun j => j * e_nodes e + i) (seq 0 (e_vars e)).
Definition neg (e : elem) (i : nat) : bool := rltb (e_phi e i) 0.

Lemma push_all : forall e l m v,
  fold_left (push_node e) l (m, v) =
  (m ++ flat_map (dofs e) (filter (fun i => negb (neg e i)) l),
   v ++ flat_map (dofs e) (filter (neg e) l)).
Proof.
  intros e l; induction l as [|i t IH]; intros m v; simpl; [now rewrite !app_nil_r|].
  unfold push_node at 2. cbn [fst snd]. fold (dofs e i) (neg e i).
  destruct (neg e i) eqn:E; rewrite IH; simpl; now rewrite <- app_assoc.
Qed.

Lemma in_dofs : forall e i k, i < e_nodes e ->
  (In k (dofs e i) <-> k < e_vars e * e_nodes e /\ k mod e_nodes e = i).
Proof.
  intros e i k Hi. unfold dofs. rewrite in_map_iff. split.
  - intros [j [<- Hj]]. apply in_seq in Hj. split; [apply flat_lt; lia|].
    rewrite Nat.add_comm, Nat.mod_add by lia. now apply Nat.mod_small.
  - intros [Hk Hm]. exists (k / e_nodes e). split.
    + pose proof (Nat.div_mod k (e_nodes e)). lia.
    + apply in_seq. split; [lia|]. simpl. apply Nat.div_lt_upper_bound; lia.
Qed.

Lemma nodup_dofs : forall e i, i < e_nodes e -> NoDup (dofs e i).
Proof.
  intros e i Hi. unfold dofs. apply FinFun.Injective_map_NoDup; [|apply seq_NoDup].
  intros a b H. assert (a * e_nodes e = b * e_nodes e) by lia.
  apply Nat.mul_cancel_r in H0; lia.
Qed.

Lemma flat_dofs : forall e l, NoDup l -> (forall i, In i l -> i < e_nodes e) ->
  NoDup (flat_map (dofs e) l) /\
  forall k, In k (flat_map (dofs e) l) <-> k < e_vars e * e_nodes e /\ In (k mod e_nodes e) l.
Proof.
  intros e l; induction l as [|i t IH]; intros N B.
  - split; [constructor|]. simpl. tauto.
  - inversion N as [|? ? Ni Nt]; subst.
    destruct (IH Nt) as [I1 I2]; [intros; apply B; now right|].
    assert (Bi : i < e_nodes e) by (apply B; now left). split.
    + simpl. assert (ND := nodup_dofs e i Bi). clear IH.
      assert (D : forall k, In k (dofs e i) -> ~ In k (flat_map (dofs e) t)).
      { intros k Hk Hf. apply in_dofs in Hk; auto. apply I2 in Hf. destruct Hk as [_ <-].
        tauto. }
      revert ND D. generalize (dofs e i). induction l as [|a l IHl]; intros ND D; simpl; auto.
      inversion ND; subst. constructor.
      * rewrite in_app_iff. intros [K|K]; [contradiction|]. apply (D a); auto. now left.
      * apply IHl; auto. intros k Hk. apply D. now right.
    + intro k. simpl. rewrite in_app_iff, in_dofs, I2 by auto. intuition.
Qed.

Lemma partition_ok : forall e, e_quad4 e = true -> e_lagrange e = true ->
  exists m v, partition_local e [] [] = Ok (m, v) /\ StronglySorted lt m /\ StronglySorted lt v /\
    (forall k, In k m <-> k < e_vars e * e_nodes e /\ (0 <= e_phi e (k mod e_nodes e))%R) /\
    (forall k, In k v <-> k < e_vars e * e_nodes e /\ (e_phi e (k mod e_nodes e) < 0)%R).
Proof.
  intros e Q L. unfold partition_local. rewrite Q, L. cbn [assert_]. cbv zeta.
  rewrite push_all. cbn [fst snd app].
  set (A := filter (fun i => negb (neg e i)) (seq 0 (e_nodes e))).
  set (B := filter (neg e) (seq 0 (e_nodes e))).
  assert (FA : NoDup (flat_map (dofs e) A) /\ forall k, In k (flat_map (dofs e) A) <->
     k < e_vars e * e_nodes e /\ In (k mod e_nodes e) A).
  { apply flat_dofs; [apply NoDup_filter, seq_NoDup|]. intros i Hi. apply filter_In in Hi as [Hi _].
    apply in_seq in Hi. lia. }
  assert (FB : NoDup (flat_map (dofs e) B) /\ forall k, In k (flat_map (dofs e) B) <->
     k < e_vars e * e_nodes e /\ In (k mod e_nodes e) B).
  { apply flat_dofs; [apply NoDup_filter, seq_NoDup|]. intros i Hi. apply filter_In in Hi as [Hi _].
    apply in_seq in Hi. lia. }
  destruct FA as [NA IA], FB as [NB IB].
  eexists _, _. split; [reflexivity|].
  split; [|split; [|split]].
  - apply sorted_strict; [apply sort_sorted|].
    eapply Permutation_NoDup; [apply Permutation_sym, sort_perm|auto].
  - apply sorted_strict; [apply sort_sorted|].
    eapply Permutation_NoDup; [apply Permutation_sym, sort_perm|auto].
  - intro k. split.
    + intro H. apply (Permutation_in _ (sort_perm _)) in H. apply IA in H as [H1 H2]. split; auto.
      apply filter_In in H2 as [_ H2]. apply negb_true_iff in H2. now apply rltb_false in H2.
    + intros [H1 H2]. apply (Permutation_in _ (Permutation_sym (sort_perm _))). apply IA.
      split; auto. apply filter_In. split.
      * apply in_seq. split; [lia|]. simpl. apply Nat.mod_upper_bound. nia.
      * apply negb_true_iff. unfold neg. now apply rltb_false.
  - intro k. split.
    + intro H. apply (Permutation_in _ (sort_perm _)) in H. apply IB in H as [H1 H2]. split; auto.
      apply filter_In in H2 as [_ H2]. now apply rltb_true in H2.
    + intros [H1 H2]. apply (Permutation_in _ (Permutation_sym (sort_perm _))). apply IB.
      split; auto. apply filter_In. split.
      * apply in_seq. split; [lia|]. simpl. apply Nat.mod_upper_bound. nia.
      * unfold neg. now apply rltb_true.
Qed.

Lemma slt_nodup : forall l, StronglySorted lt l -> NoDup l.
Proof.
  induction l; intro H; constructor; inversion H; subst; auto.
  intro K. rewrite Forall_forall in H3. specialize (H3 _ K). lia.
Qed.

Lemma partition_perm : forall e m v, partition_local e [] [] = Ok (m, v) ->
  Permutation (m ++ v) (seq 0 (e_vars e * e_nodes e)) /\ NoDup m /\ NoDup v /\
  (forall k, In k m <-> k < e_vars e * e_nodes e /\ (0 <= e_phi e (k mod e_nodes e))%R) /\
  (forall k, In k v <-> k < e_vars e * e_nodes e /\ (e_phi e (k mod e_nodes e) < 0)%R).
Proof.
  intros e m v H.
  destruct (e_quad4 e) eqn:Q; [|unfold partition_local in H; rewrite Q in H; discriminate].
  destruct (e_lagrange e) eqn:L;
    [|unfold partition_local in H; rewrite Q, L in H; discriminate].
  destruct (partition_ok e Q L) as [m' [v' [E [S1 [S2 [I1 I2]]]]]].
  rewrite E in H. injection H as -> ->. pose proof (slt_nodup _ S1). pose proof (slt_nodup _ S2).
  split; [|auto].
  apply NoDup_Permutation; [|apply seq_NoDup|].
  - assert (D : forall k, In k m -> ~ In k v).
    { intros k K1 K2. apply I1 in K1. apply I2 in K2. lra. }
    clear - H H0 D. induction m as [|a t IH]; simpl; auto. inversion H; subst. constructor.
    + rewrite in_app_iff. intros [K|K]; [contradiction|]. apply (D a); auto. now left.
    + apply IH; auto. intros k Hk. apply D. now right.
  - intro k. rewrite in_app_iff, I1, I2, in_seq. split; [intuition lia|]. intros [_ Hk].
    simpl in Hk. destruct (Rlt_dec (e_phi e (k mod e_nodes e)) 0); [right|left]; split; auto; lra.
Qed.

(** ** Loops that copy entries *)
Lemma scatter_vec : forall n (r : nat -> nat) (x : nat -> R) (g : nat -> outcome R) v,
  (forall i, i < n -> g i = Ok (x i) /\ r i < len v) ->
  (forall i j, i < n -> j < n -> r i = r j -> i = j) ->
  exists w, loop n (fun i w => y <- g i ;; set w (r i) y) v = Ok w /\ len w = len v /\
    (forall i, i < n -> cell w (r i) = x i) /\
    (forall k, (forall i, i < n -> k <> r i) -> cell w k = cell v k).
Proof.
  intros n r x g v; induction n as [|n IH]; intros H Inj; cbn [loop].
  - exists v. repeat split; auto. intros; lia.
  - destruct IH as [w [E [L [A B]]]]; [intros; apply H; lia|intros; apply Inj; lia|].
    rewrite E. cbn [bind]. destruct (H n) as [Hg Hr]; auto. rewrite Hg. cbn [bind].
    rewrite set_ok by lia. eexists; split; [reflexivity|]. cbn [len cell]. split; auto. split.
    + intros i Hi. destruct (Nat.eq_dec i n) as [->|Ne]; [apply upd_same|].
      rewrite upd_other by (intro K; apply Inj in K; lia). apply A. lia.
    + intros k Hk. rewrite upd_other by (apply Hk; lia). apply B. intros; apply Hk; lia.
Qed.

Lemma scatter_row : forall m (ri : nat) (c : nat -> nat) (x : nat -> R) (g : nat -> outcome R) M,
  (forall j, j < m -> g j = Ok (x j) /\ c j < cols M) -> ri < rows M ->
  (forall j k, j < m -> k < m -> c j = c k -> j = k) ->
  exists W, loop m (fun j W => y <- g j ;; mset W ri (c j) y) M = Ok W /\
    rows W = rows M /\ cols W = cols M /\
    (forall j, j < m -> ent W ri (c j) = x j) /\
    (forall a b, a <> ri \/ (forall j, j < m -> b <> c j) -> ent W a b = ent M a b).
Proof.
  intros m ri c x g M; induction m as [|m IH]; intros H Hr Inj; cbn [loop].
  - exists M. repeat split; auto. intros; lia.
  - destruct IH as [W [E [L1 [L2 [A B]]]]];
      [intros; apply H; lia|exact Hr|intros j k Hj Hk; apply Inj; lia|].
    rewrite E. cbn [bind]. destruct (H m) as [Hg Hc]; auto. rewrite Hg. cbn [bind].
    rewrite mset_ok by lia. eexists; split; [reflexivity|]. cbn [rows cols ent].
    split; auto. split; auto. split.
    + intros j Hj. destruct (Nat.eq_dec j m) as [->|Ne]; [apply upd2_same|].
      rewrite upd2_other by (intros [_ K]; apply Inj in K; lia). apply A. lia.
    + intros a b Hab. rewrite upd2_other.
      * apply B. destruct Hab as [?|Hab]; [now left|right]. intros; apply Hab; lia.
      * intros [K1 K2]. destruct Hab as [?|Hab]; [contradiction|]. apply (Hab m); auto.
Qed.

Lemma scatter_mat : forall n m (r c : nat -> nat) (x : nat -> nat -> R)
    (g : nat -> nat -> outcome R) M,
  (forall i j, i < n -> j < m -> g i j = Ok (x i j)) ->
  (forall i, i < n -> r i < rows M) -> (forall j, j < m -> c j < cols M) ->
  (forall i j, i < n -> j < n -> r i = r j -> i = j) ->
  (forall i j, i < m -> j < m -> c i = c j -> i = j) ->
  exists W, loop n (fun i W => loop m (fun j W => y <- g i j ;; mset W (r i) (c j) y) W) M = Ok W /\
    rows W = rows M /\ cols W = cols M /\
    (forall i j, i < n -> j < m -> ent W (r i) (c j) = x i j) /\
    (forall a b, (forall i, i < n -> a <> r i) \/ (forall j, j < m -> b <> c j) ->
       ent W a b = ent M a b).
Proof.
  intros n m r c x g M; induction n as [|n IH]; intros Hg Hr Hc Ir Ic; cbn [loop].
  - exists M. repeat split; auto. intros; lia.
  - destruct IH as [W [E [L1 [L2 [A B]]]]];
      [intros; apply Hg; lia|intros; apply Hr; lia|exact Hc|intros i j Hi Hj; apply Ir; lia|exact Ic|].
    rewrite E. cbn [bind].
    destruct (scatter_row m (r n) c (x n) (g n) W) as [W' [E' [M1 [M2 [A' B']]]]]; auto.
    { intros j Hj. rewrite L2. auto. } { rewrite L1; auto. }
    exists W'. split; auto. split; [congruence|]. split; [congruence|]. split.
    + intros i j Hi Hj. destruct (Nat.eq_dec i n) as [->|Ne]; auto.
      rewrite B' by (left; intro K; apply Ir in K; lia). apply A; lia.
    + intros a b [H|H].
      * rewrite B' by (left; apply H; lia). apply B. left. intros; apply H; lia.
      * rewrite B' by (right; auto). apply B. now right.
Qed.

Lemma gather_ok : forall rs cs a, (forall k, In k rs -> k < rows a) ->
  (forall k, In k cs -> k < cols a) ->
  exists W, gather rs cs a = Ok W /\ rows W = length rs /\ cols W = length cs /\
    forall i j, i < length rs -> j < length cs -> ent W i j = ent a (nth i rs 0) (nth j cs 0).
Proof.
  intros rs cs a Hr Hc. unfold gather.
  destruct (scatter_mat (length rs) (length cs) (fun i => i) (fun j => j)
     (fun i j => ent a (nth i rs 0) (nth j cs 0))
     (fun i j => mget a (nth i rs 0) (nth j cs 0)) (mfill (length rs) (length cs) 0%R))
    as [W [E [L1 [L2 [A _]]]]]; auto.
  - intros i j Hi Hj. apply mget_ok; [apply Hr|apply Hc]; apply nth_In; auto.
  - exists W. auto.
Qed.

Lemma gather_vec_ok : forall rs v, (forall k, In k rs -> k < len v) ->
  exists w, gather_vec rs v = Ok w /\ len w = length rs /\
    forall i, i < length rs -> cell w i = cell v (nth i rs 0).
Proof.
  intros rs v H. unfold gather_vec.
  destruct (scatter_vec (length rs) (fun i => i) (fun i => cell v (nth i rs 0))
     (fun i => get v (nth i rs 0)) (fill (length rs) 0%R)) as [w [E [L [A _]]]]; auto.
  - intros i Hi. split; auto. apply get_ok, H, nth_In; auto.
  - exists w. auto.
Qed.

Lemma inverse_ok : forall lu a, rows a = cols a ->
  exists M, inverse lu a = Ok M /\ rows M = rows a /\ cols M = rows a /\
    forall k j, j < rows a -> ent M k j = lu a (fun q => if q =? j then 1%R else 0%R) k.
Proof.
  intros lu a Sq. unfold inverse. rewrite Sq, Nat.eqb_refl. cbn [assert_].
  enough (G : forall n, exists M, loop n (fun i m => Ok (mkMat (rows m) (cols m)
     (fun k j => if j =? i then lu a (fun q => if q =? i then 1%R else 0%R) k else ent m k j)))
     (mfill (cols a) (cols a) 0%R) = Ok M /\ rows M = cols a /\ cols M = cols a /\
     forall k j, j < n -> ent M k j = lu a (fun q => if q =? j then 1%R else 0%R) k)
    by (apply G).
  induction n as [|n IH]; cbn [loop].
  - eexists; split; [reflexivity|]. repeat split; auto. intros; lia.
  - destruct IH as [M [E [L1 [L2 A]]]]. rewrite E. cbn [bind].
    eexists; split; [reflexivity|]. cbn [rows cols ent]. split; auto. split; auto.
    intros k j Hj. destruct (j =? n) eqn:Ej.
    + apply Nat.eqb_eq in Ej. now subst.
    + apply Nat.eqb_neq in Ej. apply A. lia.
Qed.

(** ** Sums over lists of indices *)
Lemma sum_lsum : forall n f, sum n f = lsum (map f (seq 0 n)).
Proof.
  induction n as [|n IH]; intro f; cbn [sum]; auto.
  rewrite seq_S, map_app, lsum_app, IH. simpl. lra.
Qed.
Lemma lsum_nth : forall f l, lsum (map f l) = sum (length l) (fun i => f (nth i l 0)).
Proof.
  intros f l. rewrite sum_lsum. f_equal. 
  induction l as [|a t IH]; auto. cbn [length seq map]. f_equal.
  rewrite IH, <- seq_shift, map_map. reflexivity.
Qed.
Lemma sum_split : forall n f m v, Permutation (m ++ v) (seq 0 n) ->
  sum n f = Rplus (sum (length m) (fun i => f (nth i m 0))) (sum (length v) (fun i => f (nth i v 0))).
Proof.
  intros n f m v H. rewrite sum_lsum, <- (lsum_perm _ _ (Permutation_map f H)), map_app, lsum_app.
  now rewrite !lsum_nth.
Qed.
