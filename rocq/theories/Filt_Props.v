(** Properties C40-C42: the level-set filter. *)
From Coq Require Import List Arith Lia Bool Reals Lra Permutation.
From Verif Require Import Base BaseLemmas RBool Filt_Model Filt_Spec Filt_Proofs Filt_Proofs2.
Import ListNotations.
Open Scope R_scope.

Lemma kd_assert : forall r nodes kd, 0 < r -> kd_query nodes kd ->
  forallb (fun n => forallb (fun e => rleb (snd e) r) (nbr_kd r kd n)) nodes = true.
Proof.
  intros. apply forallb_forall. intros n Hn. apply forallb_forall. intros e He.
  destruct (nbr_kd_cone r nodes kd n H H0 Hn) as [_ [B _]]. apply rleb_true, (B e He).
Qed.

(** Both initialisations succeed. *)
Lemma both_init : forall r nodes kd, 0 < r -> well_numbered nodes -> kd_query nodes kd ->
  (exists m, init_linear r nodes = Ok m /\ filter_of r nodes m) /\
  (exists m, init_kd r kd nodes = Ok m /\ filter_of r nodes m).
Proof.
  intros r nodes kd Hr Hw Hk. split.
  - unfold init_linear. rewrite (proj2 (rltb_true 0 r) Hr). cbn [assert_].
    destruct (init_filter_of r nodes (nbr_linear r nodes) Hr Hw) as [m [E [F _]]]; eauto.
    intros; now apply nbr_linear_cone.
  - unfold init_kd. rewrite (proj2 (rltb_true 0 r) Hr), kd_assert by auto. cbn [assert_].
    destruct (init_filter_of r nodes (nbr_kd r kd) Hr Hw) as [m [E [F _]]]; eauto.
    intros; now apply nbr_kd_cone.
Qed.

Lemma init_linear_of : forall r nodes m, well_numbered nodes -> init_linear r nodes = Ok m ->
  0 < r /\ filter_of r nodes m.
Proof.
  intros r nodes m Hw H. unfold init_linear in H. destruct (rltb 0 r) eqn:E; [|discriminate].
  apply rltb_true in E. split; auto. cbn [assert_] in H.
  destruct (init_filter_of r nodes (nbr_linear r nodes) E Hw) as [m' [E' [F _]]].
  - intros; now apply nbr_linear_cone.
  - rewrite E' in H. injection H as <-. exact F.
Qed.
Lemma init_kd_of : forall r kd nodes m, well_numbered nodes -> kd_query nodes kd ->
  init_kd r kd nodes = Ok m -> 0 < r /\ filter_of r nodes m.
Proof.
  intros r kd nodes m Hw Hk H. unfold init_kd in H. destruct (rltb 0 r) eqn:E; [|discriminate].
  apply rltb_true in E. split; auto. rewrite kd_assert in H by auto. cbn [assert_] in H.
  destruct (init_filter_of r nodes (nbr_kd r kd) E Hw) as [m' [E' [F _]]].
  - intros; now apply nbr_kd_cone.
  - rewrite E' in H. injection H as <-. exact F.
Qed.

(** A filter built by either search. *)
Definition built (r : R) (nodes : list node) (m : fmap) : Prop :=
  init_linear r nodes = Ok m \/ exists kd, kd_query nodes kd /\ init_kd r kd nodes = Ok m.

Lemma built_of : forall r nodes m, well_numbered nodes -> built r nodes m ->
  0 < r /\ filter_of r nodes m.
Proof.
  intros r nodes m Hw [H|[kd [K H]]]; [now apply init_linear_of|].
  eapply init_kd_of; eauto.
Qed.

Lemma node_of : forall nodes k, well_numbered nodes -> (k < length nodes)%nat ->
  exists p, In (k, p) nodes.
Proof.
  intros nodes k Hw Hk. assert (In k (map fst nodes)).
  { eapply Permutation_in; [apply Permutation_sym, Hw|]. apply in_seq. lia. }
  apply in_map_iff in H as [[j p] [<- H]]. eauto.
Qed.

(** What the NumericVector overload returns on the rank owning [lo, hi): the cone filter at a
    design-variable dof, the input at any other dof, zero at dofs of other ranks. *)
Lemma numeric_value : forall r nodes m dv lo hi x out, well_numbered nodes -> built r nodes m ->
  len x = length nodes -> len out = length nodes ->
  exists out', filter_numeric m dv lo hi x out = Ok out' /\ len out' = length nodes /\
    forall n, In n nodes -> cell out' (fst n) =
      if (lo <=? fst n)%nat && (fst n <? hi)%nat then
        if dv (fst n) then cone r nodes (snd n) (cell x) else cell x (fst n)
      else 0.
Proof.
  intros r nodes m dv lo hi x out Hw Hb Lx Lo.
  destruct (built_of _ _ _ Hw Hb) as [Hr F]. pose proof (filter_of_bounds _ _ _ Hw F) as [B1 B2].
  pose proof F as [S [Lm _]]. unfold filter_numeric.
  rewrite Lx, Lo, Lm, Nat.eqb_refl. cbn [assert_].
  destruct (nv_entries_ok dv lo hi x m (fill (length nodes) 0) S) as [o [E [L [J C]]]].
  - intros k Hk. rewrite Lx. simpl. split; apply B1; auto.
  - intros. rewrite Lx. eapply B2; eauto.
  - exists o. split; auto. split; [exact L|]. intros n Hn.
    destruct (filter_of_entry _ _ _ n F Hn) as [l [Cn Hi]]. rewrite (C _ _ Hi).
    change (cell (fill (length nodes) 0) (fst n)) with 0.
    destruct (_ && _); auto. destruct (dv (fst n)).
    + rewrite Rplus_0_l. now apply normalised_sum.
    + destruct Cn as [_ [_ Il]]. destruct l; [contradiction|]. reflexivity.
Qed.

(** C40.  For every mesh, positive radius and input both searches build a filter, and the filtered
    value at a design-variable dof is the cone average of the inputs. *)
Theorem C40_filter_is_cone_average : forall r nodes kd, 0 < r -> well_numbered nodes ->
  kd_query nodes kd ->
  (exists m, init_linear r nodes = Ok m) /\ (exists m, init_kd r kd nodes = Ok m) /\
  forall m, init_linear r nodes = Ok m \/ init_kd r kd nodes = Ok m ->
  forall dv lo hi x out, len x = length nodes -> len out = length nodes ->
  exists out', filter_numeric m dv lo hi x out = Ok out' /\
    forall k p, In (k, p) nodes -> (lo <= k < hi)%nat ->
      cell out' k = if dv k then cone r nodes p (cell x) else cell x k.
Proof.
  intros r nodes kd Hr Hw Hk. destruct (both_init r nodes kd Hr Hw Hk) as [[m1 [E1 _]] [m2 [E2 _]]].
  split; [eauto|]. split; [eauto|]. intros m Hm dv lo hi x out Lx Lo.
  assert (Hb : built r nodes m) by (destruct Hm; [left; auto|right; exists kd; auto]).
  destruct (numeric_value r nodes m dv lo hi x out Hw Hb Lx Lo) as [o [E [_ C]]].
  exists o. split; auto. intros k p Hi Hlh. specialize (C (k, p) Hi). cbn [fst snd] in C.
  rewrite C. replace ((lo <=? k)%nat && (k <? hi)%nat) with true; auto.
  symmetry. apply andb_true_iff. split; [apply Nat.leb_le|apply Nat.ltb_lt]; lia.
Qed.

Lemma hat_nonneg : forall r d, 0 <= hat r d.
Proof. intros. apply Rmax_l. Qed.

Lemma cone_den_pos : forall r nodes k p, 0 < r -> In (k, p) nodes ->
  0 < lsum (map (fun q : node => hat r (dist p (snd q))) nodes).
Proof.
  intros r nodes k p Hr Hi.
  apply Rlt_le_trans with (hat r (dist p (snd (k, p)))).
  - cbn [snd]. rewrite dist_self. unfold hat. rewrite Rmax_right; lra.
  - clear Hr. induction nodes as [|a t IH]; [contradiction|]. simpl.
    assert (0 <= lsum (map (fun q : node => hat r (dist p (snd q))) t))
      by (apply lsum_map_nonneg; intros; apply hat_nonneg).
    pose proof (hat_nonneg r (dist p (snd a))).
    destruct Hi as [->|Hi]; [simpl; lra|]. specialize (IH Hi). simpl in IH |- *. lra.
Qed.

(** C40, the consequences: the filtered value at a design-variable dof preserves constants, is
    linear and lies between bounds on the inputs of the nodes closer than the radius. *)
Theorem C40_filter_constants_linear_bounds : forall r nodes m dv lo hi k p,
  well_numbered nodes -> built r nodes m -> In (k, p) nodes -> (lo <= k < hi)%nat -> dv k = true ->
  exists F : arr R -> R,
    (forall x out, len x = length nodes -> len out = length nodes ->
       exists out', filter_numeric m dv lo hi x out = Ok out' /\ cell out' k = F x) /\
    (forall x c, (forall j, (j < length nodes)%nat -> cell x j = c) -> F x = c) /\
    (forall x y z a b, (forall j, (j < length nodes)%nat -> cell z j = a * cell x j + b * cell y j)
       -> F z = a * F x + b * F y) /\
    (forall x u v, (forall j q, In (j, q) nodes -> dist p q < r -> u <= cell x j <= v) ->
       u <= F x <= v).
Proof.
  intros r nodes m dv lo hi k p Hw Hb Hi Hlh Hdv.
  destruct (built_of _ _ _ Hw Hb) as [Hr _].
  pose proof (cone_den_pos r nodes k p Hr Hi) as D.
  set (W := lsum (map (fun q : node => hat r (dist p (snd q))) nodes)) in *.
  assert (CE : forall x, cone r nodes p x =
    lsum (map (fun q : node => hat r (dist p (snd q)) * x (fst q)) nodes) / W) by reflexivity.
  assert (Lt : forall j q, In (j, q) nodes -> (j < length nodes)%nat).
  { intros j q Hj. exact (well_numbered_lt nodes (j, q) Hw Hj). }
  exists (fun x => cone r nodes p (cell x)). split; [|split; [|split]].
  - intros x out Lx Lo.
    destruct (numeric_value r nodes m dv lo hi x out Hw Hb Lx Lo) as [o [E [_ C]]].
    exists o. split; auto. specialize (C (k, p) Hi). cbn [fst snd] in C. rewrite C, Hdv.
    replace ((lo <=? k)%nat && (k <? hi)%nat) with true; auto.
    symmetry. apply andb_true_iff. split; [apply Nat.leb_le|apply Nat.ltb_lt]; lia.
  - intros x c H. rewrite ?CE.
    replace (lsum (map (fun q : node => hat r (dist p (snd q)) * cell x (fst q)) nodes)) with (c * W).
    + field. lra.
    + unfold W. rewrite <- lsum_map_scal. f_equal. apply map_ext_in. intros [j q] Hj.
      cbn [fst snd]. rewrite (H j) by eauto. ring.
  - intros x y z a b H. rewrite ?CE.
    replace (lsum (map (fun q : node => hat r (dist p (snd q)) * cell z (fst q)) nodes)) with
      (a * lsum (map (fun q : node => hat r (dist p (snd q)) * cell x (fst q)) nodes) +
       b * lsum (map (fun q : node => hat r (dist p (snd q)) * cell y (fst q)) nodes)).
    + field. lra.
    + rewrite <- !lsum_map_scal, <- lsum_map_plus. f_equal. apply map_ext_in. intros [j q] Hj.
      cbn [fst snd]. rewrite (H j) by eauto. ring.
  - intros x u v H. rewrite ?CE.
    assert (A : u * W <= lsum (map (fun q : node => hat r (dist p (snd q)) * cell x (fst q)) nodes)
                <= v * W).
    { unfold W. rewrite <- !lsum_map_scal. split; apply lsum_map_le; intros [j q] Hj;
        cbn [fst snd]; pose proof (hat_nonneg r (dist p q));
        (destruct (Rlt_dec (dist p q) r) as [Hd|Hd];
         [specialize (H j q Hj Hd); nra|
          unfold hat; rewrite Rmax_left by lra; lra]). }
    split.
    + apply (Rmult_le_reg_r W); auto. unfold Rdiv. rewrite Rmult_assoc, Rinv_l by lra. lra.
    + apply (Rmult_le_reg_r W); auto. unfold Rdiv. rewrite Rmult_assoc, Rinv_l by lra. lra.
Qed.

(** A full input as an array. *)
Lemma nonzero_value : forall r nodes m dv serial lo hi z x out, well_numbered nodes ->
  built r nodes m -> len out = length nodes -> represents z x ->
  exists z' out', filter_nonzero m dv serial lo hi z out = Ok (z', out') /\ represents z' x /\
    forall n, In n nodes -> cell out' (fst n) =
      if serial || ((lo <=? fst n)%nat && (fst n <? hi)%nat) then
        if dv (fst n) then cone r nodes (snd n) x else x (fst n)
      else 0.
Proof.
  intros r nodes m dv serial lo hi z x out Hw Hb Lo Hz.
  destruct (built_of _ _ _ Hw Hb) as [Hr F]. pose proof (filter_of_bounds _ _ _ Hw F) as [B1 B2].
  pose proof F as [S [Lm _]]. unfold filter_nonzero.
  rewrite Lo, Lm, Nat.eqb_refl. cbn [assert_].
  destruct (nz_entries_ok dv serial lo hi x m z (fill (length nodes) 0) S)
    as [z' [o [E [L [R' [J C]]]]]]; auto.
  exists z', o. split; auto. split; auto. intros n Hn.
  destruct (filter_of_entry _ _ _ n F Hn) as [l [Cn Hi]]. destruct (C _ _ Hi) as [C1 C2].
  change (cell (fill (length nodes) 0) (fst n)) with 0 in C1, C2.
  destruct (serial || _); auto. specialize (C1 eq_refl). destruct (dv (fst n)).
  - rewrite C1, Rplus_0_l. now apply normalised_sum.
  - apply C1; auto. unfold normalised. rewrite map_map. cbn [fst].
    destruct Cn as [_ [_ Il]]. apply (in_map fst) in Il. exact Il.
Qed.

Lemma vector_value : forall r nodes m dv x out, well_numbered nodes -> built r nodes m ->
  len x = length nodes -> len out = length nodes ->
  exists out', filter_vector m dv x out = Ok out' /\
    forall n, In n nodes -> exists l, cone_nbr r nodes n l /\ cell out' (fst n) =
      if dv (fst n) then cone r nodes (snd n) (cell x) else INR (length l) * cell x (fst n).
Proof.
  intros r nodes m dv x out Hw Hb Lx Lo.
  destruct (built_of _ _ _ Hw Hb) as [Hr F]. pose proof (filter_of_bounds _ _ _ Hw F) as [B1 B2].
  pose proof F as [S [Lm _]]. unfold filter_vector.
  rewrite Lx, Lo, Lm, Nat.eqb_refl. cbn [assert_].
  destruct (vec_entries_ok dv x m (fill (length nodes) 0) S) as [o [E [L [J C]]]].
  - intros k Hk. rewrite Lx. simpl. split; apply B1; auto.
  - intros. rewrite Lx. eapply B2; eauto.
  - exists o. split; auto. intros n Hn.
    destruct (filter_of_entry _ _ _ n F Hn) as [l [Cn Hi]]. exists l. split; auto.
    rewrite (C _ _ Hi). change (cell (fill (length nodes) 0) (fst n)) with 0.
    rewrite Rplus_0_l. destruct (dv (fst n)).
    + now apply normalised_sum.
    + unfold normalised. now rewrite map_length.
Qed.

(** C41, the part that holds.  On one rank owning every dof the three overloads succeed and agree
    at every design-variable dof; the NumericVector and the map overloads agree at every dof, and
    the map still describes the same input afterwards.  Missing: the std::vector overload at dofs
    that are not design variables. *)
Theorem C41_overloads_agree_partial : forall r nodes m dv x z out, well_numbered nodes ->
  built r nodes m -> len x = length nodes -> len out = length nodes -> represents z (cell x) ->
  exists a b c z', filter_numeric m dv 0 (length nodes) x out = Ok a /\
    filter_nonzero m dv true 0 (length nodes) z out = Ok (z', b) /\
    filter_vector m dv x out = Ok c /\ represents z' (cell x) /\
    (forall k, (k < length nodes)%nat -> cell a k = cell b k) /\
    (forall k, (k < length nodes)%nat -> dv k = true -> cell a k = cell c k).
Proof.
  intros r nodes m dv x z out Hw Hb Lx Lo Hz.
  destruct (numeric_value r nodes m dv 0 (length nodes) x out Hw Hb Lx Lo) as [a [Ea [_ Ca]]].
  destruct (nonzero_value r nodes m dv true 0 (length nodes) z (cell x) out Hw Hb Lo Hz)
    as [z' [b [Eb [Zb Cb]]]].
  destruct (vector_value r nodes m dv x out Hw Hb Lx Lo) as [c [Ec Cc]].
  exists a, b, c, z'. split; auto. split; auto. split; auto. split; auto.
  assert (In0 : forall k, (k < length nodes)%nat ->
    (0 <=? k)%nat && (k <? length nodes)%nat = true).
  { intros k Hk. apply andb_true_iff. split; [reflexivity|now apply Nat.ltb_lt]. }
  split.
  - intros k Hk. destruct (node_of nodes k Hw Hk) as [p Hp].
    specialize (Ca _ Hp). specialize (Cb _ Hp). cbn [fst snd orb] in Ca, Cb.
    rewrite In0 in Ca by auto. congruence.
  - intros k Hk Hdv. destruct (node_of nodes k Hw Hk) as [p Hp].
    specialize (Ca _ Hp). destruct (Cc _ Hp) as [l [_ Cc']]. cbn [fst snd] in Ca, Cc'.
    rewrite In0 in Ca by auto. rewrite Hdv in Ca, Cc'. congruence.
Qed.

(** The same for any partition of the dofs over ranks: rank by rank the NumericVector and the map
    overload agree on the dofs the rank owns. *)
Theorem C41_ranks_agree_partial : forall r nodes m dv x z out lo hi, well_numbered nodes ->
  built r nodes m -> len x = length nodes -> len out = length nodes -> represents z (cell x) ->
  (hi <= length nodes)%nat ->
  exists a b s z', filter_numeric m dv lo hi x out = Ok a /\
    filter_nonzero m dv false lo hi z out = Ok (z', b) /\
    filter_numeric m dv 0 (length nodes) x out = Ok s /\
    (forall k, (lo <= k < hi)%nat -> cell a k = cell b k /\ cell a k = cell s k).
Proof.
  intros r nodes m dv x z out lo hi Hw Hb Lx Lo Hz Hh.
  destruct (numeric_value r nodes m dv lo hi x out Hw Hb Lx Lo) as [a [Ea [_ Ca]]].
  destruct (numeric_value r nodes m dv 0 (length nodes) x out Hw Hb Lx Lo) as [s [Es [_ Cs]]].
  destruct (nonzero_value r nodes m dv false lo hi z (cell x) out Hw Hb Lo Hz)
    as [z' [b [Eb [Zb Cb]]]].
  exists a, b, s, z'. split; auto. split; auto. split; auto. intros k Hk.
  destruct (node_of nodes k Hw) as [p Hp]; [lia|].
  specialize (Ca _ Hp). specialize (Cb _ Hp). specialize (Cs _ Hp).
  cbn [fst snd orb] in Ca, Cb, Cs.
  replace ((lo <=? k)%nat && (k <? hi)%nat) with true in Ca, Cb
    by (symmetry; apply andb_true_iff; split; [apply Nat.leb_le|apply Nat.ltb_lt]; lia).
  replace ((0 <=? k)%nat && (k <? length nodes)%nat) with true in Cs
    by (symmetry; apply andb_true_iff; split; [apply Nat.leb_le|apply Nat.ltb_lt]; lia).
  split; congruence.
Qed.

(** ** A concrete mesh: two nodes at distance 1, radius 2 *)
Definition two_nodes : list node := [(0%nat, (0, 0, 0)); (1%nat, (1, 0, 0))].
Lemma two_wn : well_numbered two_nodes.
Proof. apply Permutation_refl. Qed.
Lemma dist01 : dist (0, 0, 0) (1, 0, 0) = 1.
Proof. unfold dist. match goal with |- sqrt ?d = _ => replace d with (1 * 1) by (simpl; ring) end. apply sqrt_square. lra. Qed.
Definition scan_kd (nodes : list node) (p : pt) (r2 : R) : list (nat * R) :=
  map (fun q => (fst q, dist2 p (snd q)))
      (filter (fun q => if Rlt_dec (dist2 p (snd q)) r2 then true else false) nodes).
Lemma scan_kd_query : forall nodes, kd_query nodes (scan_kd nodes).
Proof. intros nodes p r2. apply Permutation_refl. Qed.
Lemma two_built : exists m, init_linear 2 two_nodes = Ok m.
Proof.
  destruct (both_init 2 two_nodes (scan_kd two_nodes)) as [[m [E _]] _]; eauto.
  - lra.
  - apply two_wn.
  - apply scan_kd_query.
Qed.
Definition x57 : arr R := mkArr 2 (fun k => match k with O => 5 | _ => 7 end).

Example C40_nonvacuous : exists m out', built 2 two_nodes m /\
  filter_numeric m (fun _ => true) 0 2 x57 (fill 2 0) = Ok out' /\
  cell out' 0%nat = (2 * 5 + 1 * 7) / 3.
Proof.
  destruct two_built as [m Hm]. exists m.
  assert (Hb : built 2 two_nodes m) by (left; auto).
  destruct (numeric_value 2 two_nodes m (fun _ => true) 0 2 x57 (fill 2 0) two_wn Hb eq_refl
              eq_refl) as [o [E [_ C]]].
  exists o. split; auto. split; auto.
  specialize (C (0%nat, (0, 0, 0)) (or_introl eq_refl)). cbn [fst snd] in C. simpl in C.
  rewrite C. unfold cone, two_nodes. cbn [map lsum fst snd].
  rewrite dist_self, dist01. unfold hat. rewrite !Rmax_right by lra. simpl. field.
Qed.

(** C41, false of the code: with two neighbours the std::vector overload returns twice the input
    at a dof that is not a design variable. *)
Theorem C41_vector_overload_refuted : exists r nodes m dv x out a c, well_numbered nodes /\
  built r nodes m /\ len x = length nodes /\ len out = length nodes /\
  filter_numeric m dv 0 (length nodes) x out = Ok a /\ filter_vector m dv x out = Ok c /\
  cell a 0%nat = cell x 0%nat /\ cell c 0%nat = 2 * cell x 0%nat /\ cell x 0%nat <> 0.
Proof.
  destruct two_built as [m Hm]. assert (Hb : built 2 two_nodes m) by (left; auto).
  destruct (numeric_value 2 two_nodes m (fun _ => false) 0 2 x57 (fill 2 0) two_wn Hb eq_refl
              eq_refl) as [a [Ea [_ Ca]]].
  assert (L : mfind 0 m = normalised 2 (nbr_linear 2 two_nodes (0%nat, (0, 0, 0)))).
  { unfold init_linear in Hm. rewrite (proj2 (rltb_true 0 2)) in Hm by lra. cbn [assert_] in Hm.
    destruct (init_filter_of 2 two_nodes (nbr_linear 2 two_nodes)) as [m' [E' [_ P]]].
    - lra.
    - apply two_wn.
    - intros; apply nbr_linear_cone; auto; lra.
    - rewrite E' in Hm. injection Hm as <-.
      apply (P (0%nat, (0, 0, 0)) (or_introl eq_refl)). }
  destruct (built_of _ _ _ two_wn Hb) as [Hr F].
  pose proof (filter_of_bounds _ _ _ two_wn F) as [B1 B2]. pose proof F as [S [Lm _]].
  destruct (vec_entries_ok (fun _ => false) x57 m (fill 2 0) S) as [c [Ec [_ [_ Cc]]]].
  { intros k Hk. specialize (B1 k Hk). simpl in *. lia. }
  { intros k l e H1 H2. apply (B2 k l e H1 H2). }
  exists 2, two_nodes, m, (fun _ => false), x57, (fill 2 0), a, c.
  split; [apply two_wn|]. split; auto. split; auto. split; auto. split; auto.
  split. { unfold filter_vector. rewrite Lm. exact Ec. }
  specialize (Ca (0%nat, (0, 0, 0)) (or_introl eq_refl)). simpl in Ca.
  split; auto.
  destruct (filter_of_entry _ _ _ (0%nat, (0, 0, 0)) F (or_introl eq_refl)) as [l [_ Hi]].
  cbn [fst] in Hi. rewrite (in_mfind _ _ _ S Hi) in L. rewrite L in Hi.
  rewrite (Cc _ _ Hi). unfold normalised. rewrite map_length.
  unfold nbr_linear, two_nodes. cbn [filter snd]. rewrite dist_self, dist01.
  rewrite !(proj2 (rleb_true _ _)) by lra. simpl. split; lra.
Qed.

(** C41, side effect: at a dof that is not a design variable the map overload inserts a zero in the
    caller's map (its contents as an input do not change, its set of keys does). *)
Theorem C41_map_grows_refuted : exists m dv z out z' out', filter_nonzero m dv true 0 2 z out =
  Ok (z', out') /\ z 0%nat = None /\ z' 0%nat = Some 0.
Proof.
  exists [(0%nat, [(1%nat, 1)]); (1%nat, [(1%nat, 1)])], (fun _ => false),
    (fun k => if (k =? 1)%nat then Some 3 else None), (fill 2 0). do 2 eexists.
  split; [reflexivity|]. split; reflexivity.
Qed.

(** C42.  When the influence test answers no, every node of the element has zero weight from the
    given node, whatever the element, the mesh the element size was taken from, and the radius. *)
Theorem C42_influence_nodes : forall r elems elem nd p, in_influence r (fe_size elems) elem nd = false ->
  In p elem -> hat r (dist p nd) = 0.
Proof.
  intros r elems elem nd p H Hp. unfold in_influence in H. apply negb_false_iff, rltb_true in H.
  pose proof (min_fold nd elem 1e12 p Hp). destruct (fe_size_ge elems) as [F _].
  unfold hat. apply Rmax_left. lra.
Qed.

(** C42, stronger: then also no level-set element containing a node of the given element has a node
    with non-zero weight, so the level set interpolated at the nodes of the given element does not
    depend on the design variable. *)
Theorem C42_influence_interpolated : forall r elems elem nd p ls w q,
  in_influence r (fe_size elems) elem nd = false -> In p elem -> In ls elems ->
  (forall s, In s ls -> 0 <= w s) -> lsum (map w ls) = 1 -> p = weighted w ls -> In q ls ->
  hat r (dist q nd) = 0.
Proof.
  intros r elems elem nd p ls w q H Hp Hl Hw H1 Ep Hq.
  unfold in_influence in H. apply negb_false_iff, rltb_true in H.
  pose proof (min_fold nd elem 1e12 p Hp). destruct (fe_size_ge elems) as [F G].
  specialize (G ls Hl).
  assert (D : dist (weighted w ls) q <= fe_size elems).
  { apply dist_weighted; auto. intros s Hs. eapply Rle_trans; [apply (hmax_ge ls s q Hs Hq)|auto]. }
  rewrite <- Ep in D. pose proof (dist_triangle p q nd).
  unfold hat. apply Rmax_left. lra.
Qed.

Definition far : pt := (10, 0, 0).
Definition unit_seg : list pt := [(0, 0, 0); (1, 0, 0)].
Example C42_nonvacuous : in_influence 2 (fe_size [unit_seg]) unit_seg far = false /\
  In (0, 0, 0) unit_seg.
Proof.
  split; [|now left].
  assert (D0 : dist (0, 0, 0) far = 10).
  { unfold dist. match goal with |- sqrt ?d = _ => replace d with (10 * 10) by (simpl; ring) end. apply sqrt_square. lra. }
  assert (D1 : dist (1, 0, 0) far = 9).
  { unfold dist. match goal with |- sqrt ?d = _ => replace d with (9 * 9) by (simpl; ring) end. apply sqrt_square. lra. }
  assert (F : fe_size [unit_seg] <= 1).
  { unfold fe_size, unit_seg, hmax. cbn [fold_left].
    rewrite !dist_self, (dist_sym (1, 0, 0) (0, 0, 0)), dist01.
    rb; lra. }
  set (f := fe_size [unit_seg]) in *. clearbody f. unfold in_influence, unit_seg. cbn [fold_left]. rewrite D0, D1.
  apply negb_false_iff, rltb_true. rb; lra.
Qed.

(** The converse safety claim for interior points is false: an element larger than the level-set
    elements can contain the node itself and be reported outside the domain of influence. *)
Definition big_quad : list pt := [(-10, -10, 0); (10, -10, 0); (10, 10, 0); (-10, 10, 0)].
Theorem C42_large_element_refuted : exists r elems elem nd w, 0 < r /\
  in_influence r (fe_size elems) elem nd = false /\ (forall p, In p elem -> 0 <= w p) /\
  lsum (map w elem) = 1 /\ hat r (dist (weighted w elem) nd) > 0.
Proof.
  exists 1, [unit_seg], big_quad, (0, 0, 0), (fun _ => / 4).
  split; [lra|].
  assert (B : forall a b, a * a = 100 -> b * b = 100 -> 10 <= dist (a, b, 0) (0, 0, 0)).
  { intros a b Ha Hb. unfold dist; simpl. rewrite <- (sqrt_square 10) by lra.
    apply sqrt_le_1; nra. }
  split; [|split; [intros; lra|split]].
  - assert (F : fe_size [unit_seg] <= 1).
    { unfold fe_size, unit_seg, hmax. cbn [fold_left].
      rewrite !dist_self, (dist_sym (1, 0, 0) (0, 0, 0)), dist01. rb; lra. }
    set (f := fe_size [unit_seg]) in *. clearbody f. unfold in_influence, big_quad. cbn [fold_left].
    pose proof (B (-10) (-10) ltac:(lra) ltac:(lra)).
    pose proof (B 10 (-10) ltac:(lra) ltac:(lra)).
    pose proof (B 10 10 ltac:(lra) ltac:(lra)).
    pose proof (B (-10) 10 ltac:(lra) ltac:(lra)).
    apply negb_false_iff, rltb_true. rb; lra.
  - unfold big_quad; simpl. lra.
  - unfold weighted, big_quad, lsum; cbn [map fold_right fst snd].
    match goal with |- hat _ (dist ?q _) > 0 =>
      assert (Q : q = (0, 0, 0)) by (f_equal; [f_equal|]; lra); rewrite Q end.
    rewrite dist_self. unfold hat. rewrite Rmax_right; lra.
Qed.

Print Assumptions C40_filter_is_cone_average.
Print Assumptions C40_filter_constants_linear_bounds.
Print Assumptions C41_overloads_agree_partial.
Print Assumptions C41_ranks_agree_partial.
Print Assumptions C41_vector_overload_refuted.
Print Assumptions C41_map_grows_refuted.
Print Assumptions C42_influence_nodes.
Print Assumptions C42_influence_interpolated.
Print Assumptions C42_large_element_refuted.
