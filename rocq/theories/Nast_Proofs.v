(** Lemmas for the Nastran reader. *)
From Coq Require Import String List Arith NArith ZArith Lia Bool Reals Lra Permutation.
From Verif Require Import Base RBool Nast_Model.
Import ListNotations.
Open Scope N_scope.

Section Map.
Context {K V : Type} (eqb : K -> K -> bool) (eqb_ok : forall a b, eqb a b = true <-> a = b).
Lemma eqb_refl_ a : eqb a a = true.
Proof. apply eqb_ok. auto. Qed.
Lemma eqb_neq a b : a <> b -> eqb a b = false.
Proof. intros H. destruct (eqb a b) eqn:E; auto. apply eqb_ok in E. contradiction. Qed.
Lemma find_upd (m : list (K * V)) k v k' : find_ eqb (upd_ eqb m k v) k' = if eqb k' k then Some v else find_ eqb m k'.
Proof.
  induction m as [|[a b] m IH]; cbn; auto. destruct (eqb k a) eqn:E.
  - apply eqb_ok in E. subst a. cbn. destruct (eqb k' k); auto.
  - cbn. rewrite IH. destruct (eqb k' a) eqn:F; auto. apply eqb_ok in F. subst a. destruct (eqb k' k) eqn:G; auto.
    apply eqb_ok in G. subst k'. rewrite eqb_refl_ in E. discriminate.
Qed.
Lemma upd_new (m : list (K * V)) k v : find_ eqb m k = None -> upd_ eqb m k v = m ++ [(k, v)].
Proof. induction m as [|[a b] m IH]; cbn; auto. destruct (eqb k a); [discriminate|]. intros H. rewrite IH; auto. Qed.
Lemma find_in (m : list (K * V)) k v : find_ eqb m k = Some v -> In (k, v) m.
Proof.
  induction m as [|[a b] m IH]; cbn; [discriminate|]. destruct (eqb k a) eqn:E; intros H; [|auto].
  injection H as <-. apply eqb_ok in E. subst. auto.
Qed.
Lemma find_none (m : list (K * V)) k : find_ eqb m k = None <-> ~ In k (map fst m).
Proof.
  induction m as [|[a b] m IH]; cbn; [tauto|]. destruct (eqb k a) eqn:E.
  - apply eqb_ok in E. subst. split; [discriminate|]. intros H. exfalso. apply H. auto.
  - rewrite IH. split; intros H; [intros [->|F]; [rewrite eqb_refl_ in E; discriminate|auto]|auto].
Qed.
Lemma in_find (m : list (K * V)) k v : NoDup (map fst m) -> In (k, v) m -> find_ eqb m k = Some v.
Proof.
  induction m as [|[a b] m IH]; cbn; intros N H; [destruct H|]. inversion N; subst. destruct H as [H|H].
  - injection H as -> ->. rewrite eqb_refl_. auto.
  - rewrite eqb_neq; auto. intros ->. apply H2. apply (in_map fst) in H. auto.
Qed.
Lemma ins_perm lt (m : list (K * V)) k v : Permutation (ins_ lt m k v) ((k, v) :: m).
Proof.
  induction m as [|[a b] m IH]; cbn; auto. destruct (lt k a); auto. rewrite IH by auto. apply perm_swap.
Qed.
Lemma upd_keys (m : list (K * V)) k v v0 : find_ eqb m k = Some v0 -> map fst (upd_ eqb m k v) = map fst m.
Proof. induction m as [|[a b] m IH]; cbn; [discriminate|]. destruct (eqb k a); cbn; auto. intros H. rewrite IH; auto. Qed.
End Map.

Lemma key_eqb_ok a b : key_eqb a b = true <-> a = b.
Proof.
  unfold key_eqb. rewrite andb_true_iff, String.eqb_eq, Nat.eqb_eq. destruct a, b; cbn. split; [intros (-> & ->); auto|intros H; injection H; auto].
Qed.
Lemma etype_eqb_ok a b : etype_eqb a b = true <-> a = b.
Proof. destruct a, b; cbn; split; intros H; auto; discriminate. Qed.
Lemma skey_eqb_ok a b : skey_eqb a b = true <-> a = b.
Proof.
  unfold skey_eqb. rewrite andb_true_iff, N.eqb_eq, etype_eqb_ok. destruct a, b; cbn. split; [intros (-> & ->); auto|intros H; injection H; auto].
Qed.

(** ** Grouping *)
Definition cards_of (g : list (key * list card)) : list card := flat_map snd g.
Definition well_grouped (g : list (key * list card)) : Prop := NoDup (map fst g) /\ forall k l, In (k, l) g -> forall c, In c l -> card_key c = k.
Lemma upd_cards g k l c : find_ key_eqb g k = Some l -> Permutation (cards_of (upd_ key_eqb g k (l ++ [c]))) (c :: cards_of g).
Proof.
  induction g as [|[a b] g IH]; cbn; [discriminate|]. destruct (key_eqb k a) eqn:E; intros H.
  - injection H as <-. cbn. rewrite <- app_assoc. symmetry. apply (Permutation_middle b (cards_of g) c).
  - cbn. rewrite IH by auto. symmetry. apply Permutation_middle.
Qed.
Lemma upd_in_ {K V} (eqb : K -> K -> bool) (m : list (K * V)) k v k' v' : (forall a b, eqb a b = true <-> a = b) ->
  In (k', v') (upd_ eqb m k v) -> (k' = k /\ v' = v) \/ In (k', v') m.
Proof.
  intros EO. induction m as [|[a b] m IH]; cbn.
  - intros [H|[]]. injection H; auto.
  - destruct (eqb k a) eqn:E; cbn.
    + apply EO in E. subst. intros [H|H]; [injection H; auto|auto].
    + intros [H|H]; [auto|]. destruct (IH H); auto.
Qed.
Lemma group_ok lt b : well_grouped (get_elements lt b) /\ Permutation (cards_of (get_elements lt b)) (b_cards b).
Proof.
  unfold get_elements. assert (G : forall l g, well_grouped g ->
    well_grouped (fold_left (fun m c => match find_ key_eqb m (card_key c) with Some l => upd_ key_eqb m (card_key c) (l ++ [c]) | None => ins_ lt m (card_key c) [c] end) l g) /\
    Permutation (cards_of (fold_left (fun m c => match find_ key_eqb m (card_key c) with Some l => upd_ key_eqb m (card_key c) (l ++ [c]) | None => ins_ lt m (card_key c) [c] end) l g)) (cards_of g ++ l)).
  { induction l as [|c l IH]; intros g W; cbn [fold_left].
    - rewrite app_nil_r. auto.
    - destruct (find_ key_eqb g (card_key c)) as [l0|] eqn:F.
      + destruct (IH (upd_ key_eqb g (card_key c) (l0 ++ [c]))) as (A & B).
        { destruct W as (W1 & W2). split; [rewrite (upd_keys _ _ _ _ _ F); auto|]. intros k l1 H c1 C1.
          destruct (upd_in_ _ _ _ _ _ _ key_eqb_ok H) as [(-> & ->)|H1]; [|eauto].
          apply in_app_iff in C1. destruct C1 as [C1|[<-|[]]]; auto. eapply W2; [|exact C1]. apply (find_in _ key_eqb_ok); auto. }
        split; auto. rewrite B, (upd_cards _ _ _ _ F). apply Permutation_middle.
      + pose proof (ins_perm lt g (card_key c) [c]) as P. destruct (IH (ins_ lt g (card_key c) [c])) as (A & B).
        { destruct W as (W1 & W2). split.
          - eapply Permutation_NoDup; [apply Permutation_sym, Permutation_map; exact P|]. cbn. constructor; auto. apply (find_none _ key_eqb_ok); auto.
          - intros k l1 H c1 C1. apply (Permutation_in _ P) in H. destruct H as [H|H]; [|eauto]. injection H as <- <-. destruct C1 as [<-|[]]; auto. }
        split; auto. rewrite B. unfold cards_of. rewrite P. cbn. apply Permutation_middle. }
  destruct (G (b_cards b) []) as (A & B); auto. split; [constructor|intros k l []].
Qed.

(** ** Reading the nodes *)
(** Relation between the maps of the nodes, the mesh and the next pointer. *)
Definition nodes_inv (i : io) (m : mesh) : Prop :=
  (forall n p, find_ N.eqb (n2l i) n = Some p -> find_ N.eqb (l2n i) p = Some n) /\
  (forall n p, find_ N.eqb (n2l i) n = Some p -> p < fresh i) /\
  (forall p n, find_ N.eqb (l2n i) p = Some n -> p < fresh i) /\
  (forall n p, find_ N.eqb (msh_nodes m) n = Some p -> find_ N.eqb (n2l i) n = Some p).
Lemma find_app {K V} eqb (m1 m2 : list (K * V)) k : find_ eqb (m1 ++ m2) k = match find_ eqb m1 k with Some v => Some v | None => find_ eqb m2 k end.
Proof. induction m1 as [|[a b] m1 IH]; cbn; auto. destruct (eqb k a); auto. Qed.
Lemma neqb_ok a b : (a =? b) = true <-> a = b.
Proof. apply N.eqb_eq. Qed.
Ltac conjs := repeat match goal with |- _ /\ _ => split end.
Lemma read_nodes_inv l : forall i m, nodes_inv i m -> let '(i', m') := read_nodes l i m in
  nodes_inv i' m' /\ e2l i' = e2l i /\ l2e i' = l2e i /\ smap i' = smap i /\ fresh i <= fresh i' /\
  msh_elems m' = msh_elems m /\ msh_bnd m' = msh_bnd m /\
  (forall n, find_ N.eqb (msh_nodes m') n <> None <-> In n l \/ find_ N.eqb (msh_nodes m) n <> None) /\
  (forall n, In n l -> exists p, find_ N.eqb (n2l i') n = Some p /\ find_ N.eqb (msh_nodes m') n = Some p) /\
  (forall n p, find_ N.eqb (msh_nodes m) n = Some p -> find_ N.eqb (msh_nodes m') n = Some p) /\
  ((forall p n, find_ N.eqb (l2n i) p = Some n -> find_ N.eqb (n2l i) n = Some p) ->
   (forall n, find_ N.eqb (n2l i) n <> None -> find_ N.eqb (msh_nodes m) n <> None) ->
   (forall p n, find_ N.eqb (l2n i') p = Some n -> find_ N.eqb (n2l i') n = Some p)).
Proof.
  induction l as [|n l IH]; intros i m I; cbn [read_nodes].
  { conjs; auto; try lia; try (intros; cbn; tauto). }
  destruct I as (I1 & I2 & I3 & I4). destruct (find_ N.eqb (msh_nodes m) n) as [p|] eqn:F.
  - specialize (IH (mkIo (upd_ N.eqb (n2l i) n p) (upd_ N.eqb (l2n i) p n) (e2l i) (l2e i) (smap i) (fresh i)) m).
    assert (P1 := I4 _ _ F). assert (P2 := I1 _ _ P1).
    assert (U1 : forall k, find_ N.eqb (upd_ N.eqb (n2l i) n p) k = find_ N.eqb (n2l i) k).
    { intros k. rewrite (find_upd _ neqb_ok). destruct (k =? n) eqn:E; auto. apply N.eqb_eq in E. subst. auto. }
    assert (U2 : forall k, find_ N.eqb (upd_ N.eqb (l2n i) p n) k = find_ N.eqb (l2n i) k).
    { intros k. rewrite (find_upd _ neqb_ok). destruct (k =? p) eqn:E; auto. apply N.eqb_eq in E. subst. auto. }
    destruct (read_nodes l _ m) as (i', m') eqn:E. destruct IH as (A & B & C & D & G & H & J & K & L & M & N).
    { unfold nodes_inv; conjs; cbn; intros *; rewrite ?U1, ?U2; eauto. }
    cbn in *. conjs; auto.
    + intros n0. split.
      * intros X. apply K in X. destruct X; auto.
      * intros [[<-|X]|X]; apply K; auto. right. congruence.
    + intros k [<-|X]; auto. exists p. split; [|apply M; auto]. apply A. apply M. auto.
    + intros X Y. apply N; intros *; rewrite ?U1, ?U2; eauto.
  - assert (NF : forall k q, find_ N.eqb (n2l i) k = Some q -> q <> fresh i) by (intros k q Q; apply I2 in Q; lia).
    assert (NG : forall k q, find_ N.eqb (l2n i) q = Some k -> q <> fresh i) by (intros k q Q; apply I3 in Q; lia).
    specialize (IH (mkIo (upd_ N.eqb (n2l i) n (fresh i)) (upd_ N.eqb (l2n i) (fresh i) n) (e2l i) (l2e i) (smap i) (fresh i + 1))
                  (mkMesh (msh_nodes m ++ [(n, fresh i)]) (msh_elems m) (msh_bnd m))).
    destruct (read_nodes l _ _) as (i', m') eqn:E. destruct IH as (A & B & C & D & G & H & J & K & L & M & N).
    { unfold nodes_inv; conjs; cbn; intros a q; rewrite ?(find_upd _ neqb_ok), ?find_app.
      - destruct (a =? n) eqn:E1.
        + intros X. injection X as <-. apply N.eqb_eq in E1. subst. rewrite N.eqb_refl. auto.
        + intros X. rewrite (proj2 (N.eqb_neq q (fresh i))) by eauto. auto.
      - destruct (a =? n); intros X; [injection X as <-; lia|]. apply I2 in X. lia.
      - destruct (a =? fresh i) eqn:E1; intros X; [apply N.eqb_eq in E1; lia|]. apply I3 in X. lia.
      - cbn. destruct (find_ N.eqb (msh_nodes m) a) as [b|] eqn:E1.
        + intros X. injection X as <-. destruct (a =? n) eqn:E2; [apply N.eqb_eq in E2; congruence|]. auto.
        + destruct (a =? n) eqn:E2; auto. discriminate. }
    cbn in *. conjs; auto; try lia.
    + intros n0. split.
      * intros X. apply K in X. destruct X as [Y|Y]; auto. rewrite find_app in Y. cbn in Y.
        destruct (find_ N.eqb (msh_nodes m) n0) eqn:E1; [right; congruence|]. destruct (n0 =? n) eqn:E2; [apply N.eqb_eq in E2; auto|congruence].
      * intros X. apply K. rewrite find_app. cbn. destruct X as [[<-|X]|X]; auto.
        -- right. rewrite F, N.eqb_refl. congruence.
        -- right. destruct (find_ N.eqb (msh_nodes m) n0); congruence.
    + intros k [<-|X]; auto. exists (fresh i).
      assert (Q : find_ N.eqb (msh_nodes m') n = Some (fresh i)) by (apply M; rewrite find_app, F; cbn; rewrite N.eqb_refl; auto).
      split; auto. apply A; auto.
    + intros k q X. apply M. rewrite find_app, X. auto.
    + intros X Y. apply N.
      * intros q a. rewrite !(find_upd _ neqb_ok). destruct (q =? fresh i) eqn:E1.
        -- intros Z. injection Z as <-. apply N.eqb_eq in E1. subst. rewrite N.eqb_refl. auto.
        -- intros Z. apply X in Z. destruct (a =? n) eqn:E2; auto. apply N.eqb_eq in E2. subst. exfalso. apply (Y n); congruence.
      * intros a. rewrite (find_upd _ neqb_ok), find_app. cbn. destruct (a =? n) eqn:E2.
        -- intros _. destruct (find_ N.eqb (msh_nodes m) a); congruence.
        -- intros Z. apply Y in Z. destruct (find_ N.eqb (msh_nodes m) a); congruence.
Qed.
