(** Neighbour searches against the cone filter; geometry of the influence test. *)
From Coq Require Import List Arith Lia Bool Reals Lra Permutation Sorted.
From Verif Require Import Base BaseLemmas RBool Filt_Model Filt_Spec Filt_Proofs.
Import ListNotations.
Open Scope R_scope.

(** A neighbour list equivalent to the cone at position [p]. *)
Definition cone_nbr (r : R) (nodes : list node) (n : node) (l : list (nat * R)) : Prop :=
  (forall x : nat -> R, lsum (map (fun e => (r - snd e) * x (fst e)) l) =
                        lsum (map (fun q => hat r (dist (snd n) (snd q)) * x (fst q)) nodes)) /\
  (forall e, In e l -> snd e <= r /\ In (fst e) (map fst nodes)) /\
  In (fst n, 0) l.

Lemma sq0 : forall a, 0 <= a * a.
Proof. intro a. exact (Rle_0_sqr a). Qed.
Lemma ss0 : forall a b c, 0 <= a * a + b * b + c * c.
Proof. intros. pose proof (sq0 a). pose proof (sq0 b). pose proof (sq0 c). lra. Qed.
Lemma dist2_nonneg : forall p q, 0 <= dist2 p q.
Proof. intros [[a b] c] [[x y] z]. simpl. apply ss0. Qed.
Lemma dist_self : forall p, dist p p = 0.
Proof.
  intros [[a b] c]. unfold dist; simpl.
  replace ((a - a) * (a - a) + (b - b) * (b - b) + (c - c) * (c - c)) with 0 by ring.
  apply sqrt_0.
Qed.

Lemma filter_hat : forall r (f : node -> R) (keep : node -> bool) (x : nat -> R) nodes,
  (forall q, keep q = true -> f q <= r) -> (forall q, keep q = false -> r <= f q) ->
  lsum (map (fun q => (r - f q) * x (fst q)) (filter keep nodes)) =
  lsum (map (fun q => hat r (f q) * x (fst q)) nodes).
Proof.
  intros r f keep x nodes H1 H2. induction nodes as [|q t IH]; simpl; auto.
  unfold hat at 1. destruct (keep q) eqn:E; simpl; rewrite IH.
  - rewrite Rmax_right; auto. specialize (H1 q E). lra.
  - rewrite Rmax_left; [lra|]. specialize (H2 q E). lra.
Qed.

Lemma nbr_linear_cone : forall r nodes n, 0 < r -> In n nodes ->
  cone_nbr r nodes n (nbr_linear r nodes n).
Proof.
  intros r nodes n Hr Hn. unfold cone_nbr, nbr_linear. split; [|split].
  - intro x. rewrite map_map. cbn [fst snd].
    apply (filter_hat r (fun q => dist (snd n) (snd q))).
    + intros q H. now apply rleb_true.
    + intros q H. apply rleb_false in H. lra.
  - intros e He. apply in_map_iff in He as [q [<- Hq]]. apply filter_In in Hq as [A B].
    cbn [fst snd]. split; [now apply rleb_true|]. now apply in_map.
  - apply in_map_iff. exists n. rewrite dist_self. split; auto. apply filter_In. split; auto.
    apply rleb_true. rewrite dist_self. lra.
Qed.

Lemma nbr_kd_cone : forall r nodes kd n, 0 < r -> kd_query nodes kd -> In n nodes ->
  cone_nbr r nodes n (nbr_kd r kd n).
Proof.
  intros r nodes kd n Hr Hkd Hn.
  assert (Lt : forall q : node, dist2 (snd n) (snd q) < r * r <-> dist (snd n) (snd q) < r).
  { intro q. unfold dist. pose proof (dist2_nonneg (snd n) (snd q)) as P. split; intro H.
    - rewrite <- (sqrt_square r) by lra. apply sqrt_lt_1; auto. nra.
    - rewrite <- (sqrt_sqrt (dist2 (snd n) (snd q))) by auto.
      pose proof (sqrt_pos (dist2 (snd n) (snd q))). nra. }
  set (keep := fun q : node => if Rlt_dec (dist2 (snd n) (snd q)) (r * r) then true else false).
  assert (P : Permutation (nbr_kd r kd n)
     (map (fun q => (fst q, dist (snd n) (snd q))) (filter keep nodes))).
  { unfold nbr_kd. eapply Permutation_trans; [apply Permutation_map, (Hkd (snd n) (r * r))|].
    rewrite map_map. apply Permutation_refl. }
  unfold cone_nbr. split; [|split].
  - intro x. rewrite (lsum_perm _ _ (Permutation_map _ P)), map_map. cbn [fst snd].
    apply (filter_hat r (fun q => dist (snd n) (snd q)) keep).
    + intros q H. unfold keep in H. destruct (Rlt_dec _ _); [|discriminate].
      apply Lt in r0. lra.
    + intros q H. unfold keep in H. destruct (Rlt_dec _ _); [discriminate|].
      destruct (Rlt_dec (dist (snd n) (snd q)) r); [|lra]. apply Lt in r0. contradiction.
  - intros e He. apply (Permutation_in _ P) in He.
    apply in_map_iff in He as [q [<- Hq]]. apply filter_In in Hq as [A B]. cbn [fst snd].
    split; [|now apply in_map]. unfold keep in B. destruct (Rlt_dec _ _); [|discriminate].
    apply Lt in r0. lra.
  - apply (Permutation_in _ (Permutation_sym P)). apply in_map_iff. exists n.
    rewrite dist_self. split; auto. apply filter_In. split; auto. unfold keep.
    destruct (Rlt_dec _ _); auto. exfalso. apply n0. apply Lt. rewrite dist_self. lra.
Qed.

Lemma cone_good : forall r nodes n l, 0 < r -> cone_nbr r nodes n l -> good_nbr r l.
Proof.
  intros r nodes n l Hr [_ [H Hi]]. split.
  - intros e He. apply (H e He).
  - unfold total. apply Rlt_le_trans with (r - snd (fst n, 0)); [simpl; lra|].
    apply (lsum_ge_each (fun e => r - snd e)); auto. intros e He. apply H in He. lra.
Qed.

Lemma cone_total : forall r nodes n l, cone_nbr r nodes n l ->
  total r l = lsum (map (fun q => hat r (dist (snd n) (snd q))) nodes).
Proof.
  intros r nodes n l [H _]. specialize (H (fun _ => 1)). unfold total.
  transitivity (lsum (map (fun e => (r - snd e) * 1) l)).
  - f_equal. apply map_ext. intro; ring.
  - rewrite H. f_equal. apply map_ext. intro; ring.
Qed.

Lemma normalised_sum : forall r nodes n l x, 0 < r -> cone_nbr r nodes n l ->
  lsum (map (fun e => x (fst e) * snd e) (normalised r l)) = cone r nodes (snd n) x.
Proof.
  intros r nodes n l x Hr H. unfold cone, normalised. rewrite map_map. cbn [fst snd].
  rewrite <- (cone_total r nodes n l H). destruct H as [H _]. rewrite <- (H x).
  unfold Rdiv. rewrite (Rmult_comm (lsum _)), <- lsum_map_scal. f_equal. apply map_ext.
  intro; ring.
Qed.

(** ** Everything about an initialised filter *)
Definition filter_of (r : R) (nodes : list node) (m : fmap) : Prop :=
  sorted m /\ length m = length nodes /\
  (forall j, In j (keys m) <-> In j (map fst nodes)) /\
  (forall n, In n nodes -> exists l, cone_nbr r nodes n l /\
      mfind (fst n) m = normalised r l).

Lemma init_filter_of : forall r nodes nbr, 0 < r -> well_numbered nodes ->
  (forall n, In n nodes -> cone_nbr r nodes n (nbr n)) ->
  exists m, init_nodes r nbr nodes [] = Ok m /\ filter_of r nodes m /\
    forall n, In n nodes -> mfind (fst n) m = normalised r (nbr n).
Proof.
  intros r nodes nbr Hr Hw Hc.
  assert (Nd : NoDup (map fst nodes)).
  { eapply Permutation_NoDup; [apply Permutation_sym, Hw|]. apply seq_NoDup. }
  destruct (init_nodes_ok r nbr nodes []) as [m [E [S [K [P _]]]]]; auto.
  - constructor.
  - intros n Hn. eapply cone_good; eauto.
  - exists m. split; auto. split; auto. split; auto. split.
    + assert (Pm : Permutation (keys m) (map fst nodes)).
      { apply NoDup_Permutation; auto. apply sorted_nodup. exact S.
        intro j. rewrite K. simpl. tauto. }
      apply Permutation_length in Pm. unfold keys in Pm. now rewrite !map_length in Pm.
    + split.
      * intro j. rewrite K. simpl. tauto.
      * intros n Hn. exists (nbr n). split; auto.
Qed.

Lemma well_numbered_lt : forall nodes n, well_numbered nodes -> In n nodes ->
  (fst n < length nodes)%nat.
Proof.
  intros nodes n Hw Hn. assert (In (fst n) (seq 0 (length nodes))).
  { eapply Permutation_in; [exact Hw|]. now apply in_map. }
  apply in_seq in H. lia.
Qed.

Lemma filter_of_entry : forall r nodes m n, filter_of r nodes m -> In n nodes ->
  exists l, cone_nbr r nodes n l /\ In (fst n, normalised r l) m.
Proof.
  intros r nodes m n [S [_ [K P]]] Hn. destruct (P n Hn) as [l [C F]]. exists l. split; auto.
  assert (In (fst n) (keys m)) by (apply K; now apply in_map).
  apply in_map_iff in H as [[k v] [Ek Hv]]. simpl in Ek. subst k.
  rewrite (in_mfind _ _ _ S Hv) in F. subst v. exact Hv.
Qed.

Lemma filter_of_bounds : forall r nodes m, well_numbered nodes -> filter_of r nodes m ->
  (forall k, In k (keys m) -> (k < length nodes)%nat) /\
  (forall k l e, In (k, l) m -> In e l -> (fst e < length nodes)%nat).
Proof.
  intros r nodes m Hw [S [_ [K P]]].
  assert (B : forall k, In k (map fst nodes) -> (k < length nodes)%nat).
  { intros k Hk. apply in_map_iff in Hk as [n [<- Hn]]. now apply well_numbered_lt. }
  split.
  - intros k Hk. apply B, K, Hk.
  - intros k l e Hkl He.
    assert (Hk : In k (keys m)) by (apply (in_map fst) in Hkl; exact Hkl).
    apply K in Hk. apply in_map_iff in Hk as [n [En Hn]]. subst k.
    destruct (P n Hn) as [l0 [[_ [C _]] F]]. rewrite (in_mfind _ _ _ S Hkl) in F. subst l.
    unfold normalised in He. apply in_map_iff in He as [e0 [<- He]]. cbn [fst].
    apply B. apply (C e0 He).
Qed.

(** ** Geometry *)
Lemma tri_sq : forall a b c x y z,
  a * x + b * y + c * z <= sqrt (a * a + b * b + c * c) * sqrt (x * x + y * y + z * z).
Proof.
  intros. rewrite <- sqrt_mult by apply ss0.
  destruct (Rle_dec 0 (a * x + b * y + c * z)).
  - rewrite <- (sqrt_square (a * x + b * y + c * z)) by auto.
    apply sqrt_le_1; [apply sq0|apply Rmult_le_pos; apply ss0|].
    pose proof (ss0 (a * y - b * x) (a * z - c * x) (b * z - c * y)). nra.
  - pose proof (sqrt_pos ((a * a + b * b + c * c) * (x * x + y * y + z * z))). lra.
Qed.

Lemma dist_sym : forall p q, dist p q = dist q p.
Proof. intros [[a b] c] [[x y] z]. unfold dist; simpl. f_equal. ring. Qed.

Lemma dist_triangle : forall p q s, dist p s <= dist p q + dist q s.
Proof.
  intros [[a b] c] [[x y] z] [[u v] w]. unfold dist; simpl.
  set (A := (a - x) * (a - x) + (b - y) * (b - y) + (c - z) * (c - z)).
  set (B := (x - u) * (x - u) + (y - v) * (y - v) + (z - w) * (z - w)).
  assert (HA : 0 <= A) by apply ss0. assert (HB : 0 <= B) by apply ss0.
  pose proof (sqrt_pos A). pose proof (sqrt_pos B).
  rewrite <- (sqrt_square (sqrt A + sqrt B)) by lra.
  apply sqrt_le_1; [apply ss0|apply sq0|].
  pose proof (tri_sq (a - x) (b - y) (c - z) (x - u) (y - v) (z - w)). fold A B in H1.
  pose proof (sqrt_sqrt A HA). pose proof (sqrt_sqrt B HB).
  replace ((a - u) * (a - u) + (b - v) * (b - v) + (c - w) * (c - w)) with
    (A + B + 2 * ((a - x) * (x - u) + (b - y) * (y - v) + (c - z) * (z - w)))
    by (unfold A, B; ring). nra.
Qed.

Lemma min_fold : forall nd elem d0 p, In p elem ->
  fold_left (fun d p => if rltb (dist p nd) d then dist p nd else d) elem d0 <= dist p nd.
Proof.
  intros nd elem. 
  assert (G : forall l d0, fold_left (fun d p => if rltb (dist p nd) d then dist p nd else d) l d0
                           <= d0).
  { induction l; intro d0; simpl; [lra|]. eapply Rle_trans; [apply IHl|].
    destruct (rltb (dist a nd) d0) eqn:E; [apply rltb_true in E|]; lra. }
  induction elem as [|q t IH]; intros d0 p H; [contradiction|]. simpl.
  destruct H as [->|H]; auto. eapply Rle_trans; [apply G|].
  destruct (rltb (dist p nd) d0) eqn:E; [lra|apply rltb_false in E; lra].
Qed.

Lemma max_fold_ge : forall (A : Type) (f : A -> R) l m0,
  m0 <= fold_left (fun m a => if rltb m (f a) then f a else m) l m0 /\
  forall a, In a l -> f a <= fold_left (fun m a => if rltb m (f a) then f a else m) l m0.
Proof.
  intros A f l; induction l as [|a t IH]; intro m0; simpl; [split; [lra|contradiction]|].
  destruct (IH (if rltb m0 (f a) then f a else m0)) as [I1 I2]. split.
  - eapply Rle_trans; [|exact I1]. destruct (rltb m0 (f a)) eqn:E; [apply rltb_true in E|]; lra.
  - intros b [->|H]; auto. eapply Rle_trans; [|exact I1].
    destruct (rltb m0 (f b)) eqn:E; [lra|apply rltb_false in E; lra].
Qed.

Lemma hmax_ge : forall e p q, In p e -> In q e -> dist p q <= hmax e.
Proof.
  intros e p q Hp Hq. unfold hmax.
  assert (G : forall l m0, m0 <= fold_left (fun m p => fold_left (fun m q =>
     if rltb m (dist p q) then dist p q else m) e m) l m0).
  { induction l; intro m0; simpl; [lra|]. eapply Rle_trans; [|apply IHl].
    apply (max_fold_ge pt (fun q => dist a q)). }
  assert (H : forall l m0, In p l -> dist p q <= fold_left (fun m p => fold_left (fun m q =>
     if rltb m (dist p q) then dist p q else m) e m) l m0).
  { induction l as [|a t IH]; intros m0 H; [contradiction|]. simpl. destruct H as [->|H]; auto.
    eapply Rle_trans; [|apply G]. apply (max_fold_ge pt (fun q => dist p q)). auto. }
  apply H; auto.
Qed.

Lemma hmax_nonneg : forall e, e <> [] -> 0 <= hmax e.
Proof.
  intros [|p t] H; [congruence|]. rewrite <- (dist_self p). apply hmax_ge; now left.
Qed.

Lemma fe_size_ge : forall elems, 0 <= fe_size elems /\
  forall e, In e elems -> hmax e <= fe_size elems.
Proof. intro elems. apply (max_fold_ge _ hmax). Qed.

(** weighted averages *)
Lemma jensen : forall (ps : list pt) (w f : pt -> R), (forall p, In p ps -> 0 <= w p) ->
  lsum (map w ps) = 1 -> forall c,
  (lsum (map (fun p => w p * f p) ps) - c) * (lsum (map (fun p => w p * f p) ps) - c) <=
  lsum (map (fun p => w p * ((f p - c) * (f p - c))) ps).
Proof.
  intros ps w f Hw H1 c.
  set (mu := lsum (map (fun p => w p * f p) ps)).
  assert (E : lsum (map (fun p => w p * ((f p - c) * (f p - c))) ps) =
     lsum (map (fun p => w p * ((f p - mu) * (f p - mu))) ps) + (mu - c) * (mu - c)).
  { transitivity (lsum (map (fun p => w p * ((f p - mu) * (f p - mu)) +
        ((2 * (mu - c)) * (w p * f p) + ((mu - c) * (mu - c) - 2 * (mu - c) * mu) * w p)) ps)).
    - f_equal. apply map_ext. intro; ring.
    - rewrite lsum_map_plus, lsum_map_plus, !lsum_map_scal, H1. fold mu. ring. }
  rewrite E. assert (0 <= lsum (map (fun p => w p * ((f p - mu) * (f p - mu))) ps)).
  { apply lsum_map_nonneg. intros p Hp. specialize (Hw p Hp).
    pose proof (Rle_0_sqr (f p - mu)). unfold Rsqr in H. nra. }
  lra.
Qed.

Lemma dist_weighted : forall ps w q h, (forall p, In p ps -> 0 <= w p) ->
  lsum (map w ps) = 1 -> 0 <= h -> (forall p, In p ps -> dist p q <= h) ->
  dist (weighted w ps) q <= h.
Proof.
  intros ps w [[x y] z] h Hw H1 Hh Hd.
  assert (D2 : dist2 (weighted w ps) (x, y, z) <= lsum (map (fun p => w p * dist2 p (x, y, z)) ps)).
  { pose proof (jensen ps w (fun p => fst (fst p)) Hw H1 x) as Jx.
    pose proof (jensen ps w (fun p => snd (fst p)) Hw H1 y) as Jy.
    pose proof (jensen ps w (fun p => snd p) Hw H1 z) as Jz.
    unfold weighted, dist2 at 1.
    apply Rle_trans with (lsum (map (fun p => w p * ((fst (fst p) - x) * (fst (fst p) - x)) +
       (w p * ((snd (fst p) - y) * (snd (fst p) - y)) + w p * ((snd p - z) * (snd p - z)))) ps)).
    - rewrite lsum_map_plus, lsum_map_plus. lra.
    - right. f_equal. apply map_ext. intros [[a b] c]. simpl. ring. }
  assert (D3 : lsum (map (fun p => w p * dist2 p (x, y, z)) ps) <=
               lsum (map (fun p => (h * h) * w p) ps)).
  { apply lsum_map_le. intros p Hp. specialize (Hd p Hp). specialize (Hw p Hp).
    pose proof (dist2_nonneg p (x, y, z)).
    assert (dist2 p (x, y, z) <= h * h).
    { rewrite <- (sqrt_sqrt (dist2 p (x, y, z))) by auto. unfold dist in Hd.
      pose proof (sqrt_pos (dist2 p (x, y, z))). nra. }
    nra. }
  rewrite lsum_map_scal, H1 in D3. unfold dist. rewrite <- (sqrt_square h) by auto.
  apply sqrt_le_1; try nra. apply dist2_nonneg.
Qed.
