(** Invariants of the reader of the elements. *)
From Coq Require Import String List Arith NArith Lia Permutation Bool.
From Verif Require Import Base Nast_Model Nast_Spec Nast_Proofs.
Import ListNotations.
Open Scope N_scope.

Lemma bind_ok_ {A B} (m : outcome A) (f : A -> outcome B) y : bind m f = Ok y -> exists x, m = Ok x /\ f x = Ok y.
Proof. destruct m; cbn; [eauto|discriminate]. Qed.

(** What is known of an element made from a card. *)
Definition made (i : io) (c : card) (e : melem) : Prop :=
  m_id e = c_eid c /\ find_ key_eqb type_map (card_key c) = Some (m_type e) /\
  (exists s, find_ skey_eqb (smap i) (to16 (c_pid c), m_type e) = Some s /\ m_sid e = to16 s) /\
  Forall2 (fun n p => find_ N.eqb (n2l i) n = Some p) (c_nodes c) (m_nodes e) /\
  find_ N.eqb (l2e i) (m_ptr e) = Some (c_eid c) /\ m_ptr e < fresh i.
(** Growth of the maps. *)
Definition grows (i i' : io) : Prop :=
  n2l i' = n2l i /\ l2n i' = l2n i /\ fresh i <= fresh i' /\
  (forall k s, find_ skey_eqb (smap i) k = Some s -> find_ skey_eqb (smap i') k = Some s) /\
  (forall p n, p < fresh i -> find_ N.eqb (l2e i) p = Some n -> find_ N.eqb (l2e i') p = Some n).
Lemma grows_refl i : grows i i.
Proof. unfold grows; conjs; auto; lia. Qed.
Lemma grows_trans i j k : grows i j -> grows j k -> grows i k.
Proof.
  intros (A & B & C & D & E) (A' & B' & C' & D' & E'). unfold grows; conjs; try congruence; try lia; eauto.
  intros p n P Q. apply E'; [lia|auto].
Qed.
Lemma made_grows i i' c e : grows i i' -> made i c e -> made i' c e.
Proof.
  intros (A & B & C & D & E) (F & G & (s & H & H') & I & J & K). unfold made; conjs; auto; try lia.
  - exists s. auto.
  - rewrite A. auto.
Qed.
Lemma elem_nodes_ok i m : forall l left q, elem_nodes l i m left = Ok q -> Forall2 (fun n p => find_ N.eqb (n2l i) n = Some p) l q /\ (length l <= left)%nat.
Proof.
  induction l as [|n l IH]; intros left q H; cbn in H.
  - injection H as <-. split; [constructor|cbn; lia].
  - apply bind_ok_ in H. destruct H as (p & P & H). destruct left as [|left]; [discriminate|].
    apply bind_ok_ in H. destruct H as (r & R & H). injection H as <-. destruct (IH _ _ R) as (X & Y). split; [|cbn; lia].
    constructor; auto. unfold node_at in P. destruct (find_ N.eqb (n2l i) n); [|discriminate]. destruct (existsb _ _); [|discriminate]. injection P as ->. auto.
Qed.
Definition smap_ok (i : io) (z : N) : Prop :=
  z = 1 + N.of_nat (length (smap i)) /\
  (forall k s, find_ skey_eqb (smap i) k = Some s -> 1 <= s < z) /\
  (forall k k' s, find_ skey_eqb (smap i) k = Some s -> find_ skey_eqb (smap i) k' = Some s -> k = k').
Lemma upd_len {K V} (eqb : K -> K -> bool) (m : list (K * V)) k v : find_ eqb m k = None -> length (upd_ eqb m k v) = S (length m).
Proof. induction m as [|[a b] m IH]; cbn; auto. destruct (eqb k a); [discriminate|]. cbn. intros H. rewrite IH; auto. Qed.

Lemma read_elem_ok t c z i m z' i' m' : read_elem t c z i m = Ok (z', i', m') ->
  (forall p n, find_ N.eqb (l2e i) p = Some n -> p < fresh i) ->
  find_ key_eqb type_map (card_key c) = Some t ->
  grows i i' /\ (exists e, msh_elems m' = msh_elems m ++ [e] /\ made i' c e /\ m_ptr e = fresh i /\ e2l i' = upd_ N.eqb (e2l i) (c_eid c) (m_ptr e)) /\
  msh_nodes m' = msh_nodes m /\ msh_bnd m' = msh_bnd m /\
  (smap_ok i z -> smap_ok i' z') /\ (forall p n, find_ N.eqb (l2e i') p = Some n -> p < fresh i') /\ fresh i' = fresh i + 1 /\
  (length (c_nodes c) <= n_nodes t)%nat /\ z' <= z + 1 /\
  (forall p n, find_ N.eqb (l2e i') p = Some n -> find_ N.eqb (l2e i) p = Some n \/ (p = fresh i /\ n = c_eid c)).
Proof.
  intros H LE TM. unfold read_elem in H.
  destruct (find_ skey_eqb (smap i) (to16 (c_pid c), t)) as [s|] eqn:F.
  - rewrite F in H. apply bind_ok_ in H. destruct H as (ns & NS & H). injection H as <- <- <-.
    destruct (elem_nodes_ok _ _ _ _ _ NS) as (NS1 & NS2). unfold grows, made; cbn in *. conjs; auto; try lia.
    + intros p n P Q. rewrite (find_upd _ neqb_ok). rewrite (proj2 (N.eqb_neq p (fresh i))) by lia. auto.
    + eexists; conjs; [reflexivity|..]; cbn; auto; try lia; eauto. rewrite (find_upd _ neqb_ok), N.eqb_refl. auto.
    + intros p n. rewrite (find_upd _ neqb_ok). destruct (p =? fresh i) eqn:E1; [apply N.eqb_eq in E1; lia|]. intros Q. apply LE in Q. lia.
    + intros p n. rewrite (find_upd _ neqb_ok). destruct (p =? fresh i) eqn:E1; auto. apply N.eqb_eq in E1. intros Q. injection Q as <-. auto.
  - rewrite (find_upd _ skey_eqb_ok) in H. rewrite (proj2 (skey_eqb_ok (to16 (c_pid c), t) _) eq_refl) in H.
    apply bind_ok_ in H. destruct H as (ns & NS & H). injection H as <- <- <-.
    destruct (elem_nodes_ok _ _ _ _ _ NS) as (NS1 & NS2). unfold grows, made, smap_ok; cbn [n2l l2n e2l l2e smap fresh msh_elems msh_nodes msh_bnd] in *. conjs; auto; try lia.
    + intros k s Q. rewrite (find_upd _ skey_eqb_ok). destruct (skey_eqb k (to16 (c_pid c), t)) eqn:E1; auto. apply skey_eqb_ok in E1. congruence.
    + intros p n P Q. rewrite (find_upd _ neqb_ok). rewrite (proj2 (N.eqb_neq p (fresh i))) by lia. auto.
    + eexists; conjs; [reflexivity|..]; cbn [m_id m_type m_sid m_ptr m_nodes]; auto; try lia.
      * exists z. rewrite (find_upd _ skey_eqb_ok). rewrite (proj2 (skey_eqb_ok (to16 (c_pid c), t) _) eq_refl). auto.
      * rewrite (find_upd _ neqb_ok), N.eqb_refl. auto.
    + intros (Z1 & Z2 & Z3). conjs.
      * rewrite upd_len by auto. lia.
      * intros k s. rewrite (find_upd _ skey_eqb_ok). destruct (skey_eqb k (to16 (c_pid c), t)); intros Q; [injection Q as <-; lia|]. apply Z2 in Q. lia.
      * intros k k' s. rewrite !(find_upd _ skey_eqb_ok).
        destruct (skey_eqb k (to16 (c_pid c), t)) eqn:E1, (skey_eqb k' (to16 (c_pid c), t)) eqn:E2; intros Q Q'; eauto.
        -- apply skey_eqb_ok in E1, E2. congruence.
        -- injection Q as <-. apply Z2 in Q'. lia.
        -- injection Q' as <-. apply Z2 in Q. lia.
    + intros p n. rewrite (find_upd _ neqb_ok). destruct (p =? fresh i) eqn:E1; [apply N.eqb_eq in E1; lia|]. intros Q. apply LE in Q. lia.
    + intros p n. rewrite (find_upd _ neqb_ok). destruct (p =? fresh i) eqn:E1; auto. apply N.eqb_eq in E1. intros Q. injection Q as <-. auto.
Qed.
Definition pairs_ok (i : io) (ps : list (card * melem)) : Prop := Forall (fun ce => made i (fst ce) (snd ce)) ps.
(** The last card of a number owns the entry of the element map. *)
Definition e2l_ok (i i0 : io) (ps : list (card * melem)) : Prop :=
  forall n, find_ N.eqb (e2l i) n = match find (fun ce : card * melem => c_eid (fst ce) =? n) (rev ps) with Some ce => Some (m_ptr (snd ce)) | None => find_ N.eqb (e2l i0) n end.
Definition step_ok (cs : list card) z i m z' i' m' : Prop :=
  exists ps, grows i i' /\ map fst ps = cs /\ msh_elems m' = msh_elems m ++ map snd ps /\ pairs_ok i' ps /\
  e2l_ok i' i ps /\ Forall (fun ce => fresh i <= m_ptr (snd ce)) ps /\ NoDup (map (fun ce => m_ptr (snd ce)) ps) /\
  msh_nodes m' = msh_nodes m /\ msh_bnd m' = msh_bnd m /\
  (smap_ok i z -> smap_ok i' z') /\ (forall p n, find_ N.eqb (l2e i') p = Some n -> p < fresh i') /\
  Forall (fun ce => (length (c_nodes (fst ce)) <= n_nodes (m_type (snd ce)))%nat) ps /\
  z' <= z + N.of_nat (length cs) /\
  (forall p n, find_ N.eqb (l2e i') p = Some n -> find_ N.eqb (l2e i) p = Some n \/ exists ce, In ce ps /\ m_ptr (snd ce) = p /\ c_eid (fst ce) = n).
Lemma find_app_ {A} (f : A -> bool) l1 l2 : find f (l1 ++ l2) = match find f l1 with Some a => Some a | None => find f l2 end.
Proof. induction l1 as [|a l1 IH]; cbn; auto. destruct (f a); auto. Qed.
Lemma step_trans c1 c2 z i m z1 i1 m1 z2 i2 m2 : step_ok c1 z i m z1 i1 m1 -> step_ok c2 z1 i1 m1 z2 i2 m2 -> step_ok (c1 ++ c2) z i m z2 i2 m2.
Proof.
  intros (p1 & A1 & A2 & A3 & A4 & A5 & A6 & A7 & A8 & A9 & A10 & A11 & A12 & A13 & A14) (p2 & B1 & B2 & B3 & B4 & B5 & B6 & B7 & B8 & B9 & B10 & B11 & B12 & B13 & B14).
  exists (p1 ++ p2). conjs; auto; try congruence.
  - eapply grows_trans; eauto.
  - rewrite map_app. congruence.
  - rewrite B3, A3, map_app, app_assoc. auto.
  - apply Forall_app. split; auto. eapply Forall_impl; [|exact A4]. intros ce X. eapply made_grows; eauto.
  - intros n. rewrite rev_app_distr, find_app_, B5. destruct (find _ (rev p2)); auto.
  - apply Forall_app. split; auto. eapply Forall_impl; [|exact B6]. intros ce X. cbn in X. destruct A1 as (_ & _ & A1 & _). lia.
  - rewrite map_app. assert (D : forall q, In q (map (fun ce : card * melem => m_ptr (snd ce)) p1) -> ~ In q (map (fun ce : card * melem => m_ptr (snd ce)) p2)).
    { intros q Q1 Q2. apply in_map_iff in Q1, Q2. destruct Q1 as (x & X1 & X2), Q2 as (y & Y1 & Y2).
      eapply Forall_forall in A4; [|exact X2]. eapply Forall_forall in B6; [|exact Y2]. destruct A4 as (_ & _ & _ & _ & _ & A4). cbn in B6. lia. }
    clear - A7 B7 D. induction (map (fun ce : card * melem => m_ptr (snd ce)) p1) as [|a l IH]; cbn; auto. inversion A7; subst.
    constructor; [|apply IH; auto; intros q Q; apply D; right; auto]. rewrite in_app_iff. intros [X|X]; [contradiction|]. eapply D; [left; reflexivity|exact X].
  - apply Forall_app. auto.
  - rewrite app_length. lia.
  - intros p n X. apply B14 in X. destruct X as [X|(ce & X & Y & Z)].
    + apply A14 in X. destruct X as [X|(ce & X & Y & Z)]; auto. right. exists ce. rewrite in_app_iff. auto.
    + right. exists ce. rewrite in_app_iff. auto.
Qed.
Lemma step_nil z i m : (forall p n, find_ N.eqb (l2e i) p = Some n -> p < fresh i) -> step_ok [] z i m z i m.
Proof. intros L. exists []. conjs; auto; try apply grows_refl; try constructor; cbn; try lia; try (rewrite app_nil_r; auto); auto. Qed.
Lemma step_one t c z i m z' i' m' : read_elem t c z i m = Ok (z', i', m') -> (forall p n, find_ N.eqb (l2e i) p = Some n -> p < fresh i) ->
  find_ key_eqb type_map (card_key c) = Some t -> step_ok [c] z i m z' i' m'.
Proof.
  intros H L T. destruct (read_elem_ok _ _ _ _ _ _ _ _ H L T) as (A & (e & E1 & E2 & E3 & E4) & B & C & D & E & F & G & Z & LL).
  exists [(c, e)]. conjs; auto.
  - constructor; [exact E2|constructor].
  - intros n. cbn. rewrite E4, (find_upd _ neqb_ok), (N.eqb_sym n). destruct (c_eid c =? n); auto.
  - constructor; [cbn; lia|constructor].
  - cbn. constructor; [intros []|constructor].
  - constructor; [|constructor]. cbn. destruct E2 as (_ & E2 & _). rewrite T in E2. injection E2 as <-. auto.
  - intros p n X. apply LL in X. destruct X as [X|(-> & ->)]; auto. right. exists (c, e). cbn. auto.
Qed.
Lemma read_group_ok t l : forall z i m z' i' m', read_group t l z i m = Ok (z', i', m') -> (forall p n, find_ N.eqb (l2e i) p = Some n -> p < fresh i) ->
  (forall c, In c l -> find_ key_eqb type_map (card_key c) = Some t) -> step_ok l z i m z' i' m'.
Proof.
  induction l as [|c l IH]; intros z i m z' i' m' H L T; cbn in H.
  - injection H as <- <- <-. apply step_nil. auto.
  - apply bind_ok_ in H. destruct H as (((z1, i1), m1) & X & H). cbn in H.
    assert (S1 := step_one _ _ _ _ _ _ _ _ X L (T c (or_introl eq_refl))).
    apply (step_trans [c] l _ _ _ z1 i1 m1); auto. apply IH; auto.
    + destruct S1 as (ps & S1). apply S1.
    + intros c' C'. apply T. right. auto.
Qed.
Lemma read_groups_ok g : forall z i m i' m', read_groups g z i m = Ok (i', m') -> (forall p n, find_ N.eqb (l2e i) p = Some n -> p < fresh i) ->
  (forall k l, In (k, l) g -> forall c, In c l -> card_key c = k) -> exists z', step_ok (cards_of g) z i m z' i' m'.
Proof.
  induction g as [|[k l] g IH]; intros z i m i' m' H L W; cbn [read_groups] in H.
  - injection H as <- <-. exists z. apply step_nil. auto.
  - destruct (find_ key_eqb type_map k) as [t|] eqn:T; [|discriminate H]. apply bind_ok_ in H. destruct H as (((z1, i1), m1) & X & H). cbn [fst snd] in H.
    assert (S1 : step_ok l z i m z1 i1 m1).
    { eapply read_group_ok; eauto. intros c C. rewrite (W k l (or_introl eq_refl) c C). auto. }
    destruct (IH z1 i1 m1 i' m' H) as (z' & S2).
    + destruct S1 as (ps & S1). apply S1.
    + intros k' l' K. apply (W k' l'). right. auto.
    + exists z'. eapply step_trans; eauto.
Qed.

(** ** Histories of reads *)
Definition inv (i : io) : Prop :=
  (forall n p, find_ N.eqb (n2l i) n = Some p -> find_ N.eqb (l2n i) p = Some n) /\
  (forall n p, find_ N.eqb (n2l i) n = Some p -> p < fresh i) /\
  (forall p n, find_ N.eqb (l2n i) p = Some n -> p < fresh i) /\
  (forall p n, find_ N.eqb (l2e i) p = Some n -> p < fresh i).
Lemma inv0 : inv io0.
Proof. unfold inv; cbn; conjs; intros ? ? H; discriminate H. Qed.
Lemma read_model_ok lt b i i' m' : inv i -> read_model lt b i = Ok (i', m') ->
  inv i' /\ exists i1 m1 z', read_nodes (b_nodes b) i (mkMesh [] [] []) = (i1, m1) /\ step_ok (cards_of (get_elements lt b)) 1 i1 m1 z' i' m'.
Proof.
  intros (I1 & I2 & I3 & I4) H. unfold read_model in H.
  pose proof (read_nodes_inv (b_nodes b) i (mkMesh [] [] [])) as R. destruct (read_nodes (b_nodes b) i _) as (i1, m1) eqn:E.
  destruct R as ((A1 & A2 & A3 & A4) & B & C & D & F & _). { unfold nodes_inv; conjs; auto. cbn. intros ? ? X; discriminate X. }
  destruct (read_groups_ok _ _ _ _ _ _ H) as (z' & S).
  - intros p n. rewrite C. intros X. apply I4 in X. lia.
  - apply group_ok.
  - split; [|eauto 6]. destruct S as (ps & (G1 & G2 & G3 & G4 & G5) & _ & _ & _ & _ & _ & _ & _ & _ & _ & S & _ & _ & _).
    unfold inv. rewrite G1, G2. conjs; auto.
    + intros n p X. apply A2 in X. lia.
    + intros n p X. apply A3 in X. lia.
Qed.
Lemma reads_inv lt h i m : reads lt h i m -> inv i.
Proof. induction 1; [apply inv0|]. eapply read_model_ok; eauto. Qed.
