(** Properties of the Nastran mesh reader. *)
From Coq Require Import String List Arith NArith Lia Permutation Bool Reals Lra.
From Verif Require Import Base RBool Nast_Model Nast_Spec Nast_Proofs Nast_Proofs2.
Import ListNotations.
Open Scope N_scope.

(** ** C57 *)
Lemma model_pairs lt b i i' m' : inv i -> read_model lt b i = Ok (i', m') ->
  exists ps z', pairing b i' m' ps /\ pairs_ok i' ps /\ z' <= 1 + N.of_nat (length (b_cards b)) /\
  (smap i = [] -> smap_ok i' z') /\
  (forall k s, find_ skey_eqb (smap i) k = Some s -> find_ skey_eqb (smap i') k = Some s).
Proof.
  intros I H. pose proof (read_nodes_inv (b_nodes b) i (mkMesh [] [] [])) as R. destruct (read_model_ok _ _ _ _ _ I H) as (I' & i1 & m1 & z' & E & ps & A1 & A2 & A3 & A4 & A5 & A6 & A7 & A8 & A9 & A10 & A11 & A12 & A13 & A14).
  rewrite E in R. destruct R as (R1 & R2 & R3 & R4 & R5 & R6 & R7 & _).
  { unfold nodes_inv; conjs; try apply I. cbn. intros ? ? X; discriminate X. }
  destruct (group_ok lt b) as (_ & P). exists ps, z'. conjs; auto.
  - unfold pairing. conjs.
    + rewrite A2. auto.
    + rewrite A3, R6. auto.
    + eapply Forall_impl; [|exact A4]. intros ce (X1 & X2 & X3 & X4 & _). unfold same_element. auto.
  - rewrite <- (Permutation_length P). auto.
  - intros S. apply A10. unfold smap_ok. rewrite R4, S. cbn. conjs; auto; intros; discriminate.
  - intros k s X. apply A1. rewrite R4. auto.
Qed.
Lemma to16_small n : n < 65536 -> to16 n = n.
Proof. intros. unfold to16. apply N.mod_small. auto. Qed.

(** One read: same subdomain exactly for same property id and element type. *)
Theorem C57_subdomains_partial : forall lt b i m, read_model lt b io0 = Ok (i, m) ->
  (forall c, In c (b_cards b) -> c_pid c < 65536) -> N.of_nat (length (b_cards b)) < 65536 ->
  exists ps, pairing b i m ps /\
  forall c e c' e', In (c, e) ps -> In (c', e') ps ->
    (m_sid e = m_sid e' <-> c_pid c = c_pid c' /\ m_type e = m_type e').
Proof.
  intros lt b i m H PID LEN. destruct (model_pairs _ _ _ _ _ inv0 H) as (ps & z' & P & Q & Z & S & _). exists ps. split; auto.
  destruct (S eq_refl) as (S1 & S2 & S3). intros c e c' e' C C'.
  assert (W : forall c e, In (c, e) ps -> c_pid c < 65536).
  { intros. apply PID. destruct P as (P & _). eapply Permutation_in; [exact P|]. apply in_map_iff. exists (c0, e0). auto. }
  pose proof (proj1 (Forall_forall _ _) Q _ C) as (_ & _ & (s & X & Y) & _).
  pose proof (proj1 (Forall_forall _ _) Q _ C') as (_ & _ & (s' & X' & Y') & _). cbn [fst snd] in *.
  rewrite to16_small in X, X' by eauto. rewrite Y, Y'.
  assert (B := S2 _ _ X). assert (B' := S2 _ _ X'). rewrite !to16_small by lia. split.
  - intros ->. specialize (S3 _ _ _ X X'). injection S3; auto.
  - intros (E1 & E2). rewrite E1, E2 in X. congruence.
Qed.

(** Any history of reads: elements with the same property id and type have the same subdomain, in one
    mesh and from one mesh to the next. *)
Theorem C57_same_subdomain : forall lt h i m b i' m' b1 i1 m1,
  reads lt h i m -> read_model lt b i = Ok (i', m') -> read_model lt b1 i' = Ok (i1, m1) ->
  exists ps ps1, pairing b i' m' ps /\ pairing b1 i1 m1 ps1 /\
  forall c e c' e', In (c, e) ps \/ In (c, e) ps1 -> In (c', e') ps \/ In (c', e') ps1 ->
    c_pid c = c_pid c' -> m_type e = m_type e' -> m_sid e = m_sid e'.
Proof.
  intros lt h i m b i' m' b1 i1 m1 R H H1. assert (I := reads_inv _ _ _ _ R).
  assert (I' : inv i') by (eapply reads_inv; econstructor; eauto).
  destruct (model_pairs _ _ _ _ _ I H) as (ps & z' & P & Q & _). destruct (model_pairs _ _ _ _ _ I' H1) as (ps1 & z1 & P1 & Q1 & _ & _ & G).
  exists ps, ps1. conjs; auto. 
  assert (W : forall c e, In (c, e) ps \/ In (c, e) ps1 -> exists s, find_ skey_eqb (smap i1) (to16 (c_pid c), m_type e) = Some s /\ m_sid e = to16 s).
  { intros c e [C|C].
    - pose proof (proj1 (Forall_forall _ _) Q _ C) as (_ & _ & (s & X & Y) & _). exists s. split; auto.
    - pose proof (proj1 (Forall_forall _ _) Q1 _ C) as (_ & _ & (s & X & Y) & _). exists s. split; auto. }
  intros c e c' e' C C' E1 E2. destruct (W _ _ C) as (s & X & Y), (W _ _ C') as (s' & X' & Y'). rewrite E1, E2 in X. congruence.
Qed.

(** One read: the node maps are inverse, and hold exactly the nodes of the file. *)
Theorem C57_node_maps_partial : forall lt b i m, read_model lt b io0 = Ok (i, m) ->
  inverse_maps (n2l i) (l2n i) /\ forall n, find_ N.eqb (n2l i) n <> None <-> In n (b_nodes b).
Proof.
  intros lt b i m H. pose proof (read_nodes_inv (b_nodes b) io0 (mkMesh [] [] [])) as R.
  destruct (read_model_ok _ _ _ _ _ inv0 H) as (I' & i1 & m1 & z' & E & ps & (A1 & A2 & _) & _).
  rewrite E in R. destruct R as (R1 & R2 & R3 & R4 & R5 & R6 & R7 & R8 & R9 & R10 & R11).
  { unfold nodes_inv; conjs; cbn; intros ? ? X; discriminate X. }
  rewrite A1, A2. split.
  - intros n p. split; [apply R1|]. apply R11; cbn; intros; [discriminate|contradiction].
  - intros n. split.
    + assert (G : forall l i m, (forall k, find_ N.eqb (n2l i) k <> None -> In k (b_nodes b)) -> incl l (b_nodes b) ->
        forall k, find_ N.eqb (n2l (fst (read_nodes l i m))) k <> None -> In k (b_nodes b)).
      { clear. induction l as [|a l IH]; intros i m X Y k; cbn [read_nodes]; auto.
        assert (Z : forall p mm f k, find_ N.eqb (n2l (fst (read_nodes l (mkIo (upd_ N.eqb (n2l i) a p) (upd_ N.eqb (l2n i) p a) (e2l i) (l2e i) (smap i) f) mm))) k <> None -> In k (b_nodes b)).
        { intros p mm f k0. apply IH; [|intros x Hx; apply Y; right; auto]. cbn. intros k1. rewrite (find_upd _ neqb_ok). destruct (k1 =? a) eqn:E; auto.
          apply N.eqb_eq in E. subst. intros _. apply Y. left. auto. }
        destruct (find_ N.eqb (msh_nodes m) a); apply Z. }
      specialize (G (b_nodes b) io0 (mkMesh [] [] [])). rewrite E in G. apply G; [cbn; congruence|apply incl_refl].
    + intros X. destruct (R9 n X) as (p & P & _). congruence.
Qed.
(** Any history: from the number to the node and back. *)
Theorem C57_node_round_trip : forall lt h i m n p, reads lt h i m ->
  find_ N.eqb (n2l i) n = Some p -> find_ N.eqb (l2n i) p = Some n.
Proof. intros lt h i m n p R. apply (reads_inv _ _ _ _ R). Qed.
(** One read of a file with distinct element numbers: the element maps are inverse, and hold exactly
    the elements of the mesh. *)
Theorem C57_element_maps_partial : forall lt b i m, read_model lt b io0 = Ok (i, m) -> NoDup (map c_eid (b_cards b)) ->
  inverse_maps (e2l i) (l2e i) /\
  forall n p, find_ N.eqb (e2l i) n = Some p <-> exists e, In e (msh_elems m) /\ m_id e = n /\ m_ptr e = p.
Proof.
  intros lt b i m H ND. pose proof (read_nodes_inv (b_nodes b) io0 (mkMesh [] [] [])) as R.
  destruct (read_model_ok _ _ _ _ _ inv0 H) as (I' & i1 & m1 & z' & E & ps & A1 & A2 & A3 & A4 & A5 & A6 & A7 & A8 & A9 & A10 & A11 & A12 & A13 & A14).
  rewrite E in R. destruct R as (R1 & R2 & R3 & R4 & R5 & R6 & R7 & R8 & R9 & R10 & R11).
  { unfold nodes_inv; conjs; cbn; intros ? ? X; discriminate X. }
  assert (NP : NoDup (map (fun ce : card * melem => c_eid (fst ce)) ps)).
  { rewrite <- map_map, A2. eapply Permutation_NoDup; [apply Permutation_map, Permutation_sym, group_ok|auto]. }
  assert (MK : forall ce, In ce ps -> made i (fst ce) (snd ce)) by (apply Forall_forall; auto).
  assert (F1 : forall n p, find_ N.eqb (e2l i) n = Some p <-> exists ce, In ce ps /\ c_eid (fst ce) = n /\ m_ptr (snd ce) = p).
  { intros n p. rewrite A5, R2. cbn [e2l io0 find_]. destruct (find _ (rev ps)) as [ce|] eqn:F.
    - apply find_some in F. destruct F as (F1 & F2). apply in_rev in F1. apply N.eqb_eq in F2. split.
      + intros X. injection X as <-. eauto.
      + intros (ce' & X & Y & Z). assert (ce = ce'); [|subst; auto]. clear - NP F1 F2 X Y. induction ps as [|a l IH]; [contradiction|].
        cbn in NP. inversion NP; subst. destruct F1 as [<-|F1], X as [<-|X]; auto.
        * exfalso. apply H1. rewrite <- Y. apply (in_map (fun ce : card * melem => c_eid (fst ce))) in X. auto.
        * exfalso. apply H1. rewrite Y. apply (in_map (fun ce : card * melem => c_eid (fst ce))) in F1. auto.
    - split; [discriminate|]. intros (ce & X & Y & Z). apply in_rev in X. pose proof (List.find_none _ _ F _ X) as W. cbn in W. rewrite Y, N.eqb_refl in W. discriminate. }
  split.
  - intros n p. rewrite F1. split.
    + intros (ce & X & <- & <-). apply MK in X. apply X.
    + intros X. apply A14 in X. rewrite R3 in X. destruct X as [X|(ce & X & Y & Z)]; [discriminate|]. eauto.
  - intros n p. rewrite F1. assert (A3' : msh_elems m = map snd ps) by (rewrite A3, R6; auto). rewrite A3'. split.
    + intros (ce & X & <- & <-). exists (snd ce). conjs; auto; [apply in_map; auto|]. apply MK in X. apply X.
    + intros (e & X & <- & <-). apply in_map_iff in X. destruct X as (ce & <- & X). exists ce. conjs; auto. apply MK in X. symmetry. apply X.
Qed.

Open Scope string_scope. Open Scope list_scope. Open Scope N_scope.
Definition any_order {K} (_ _ : K) : bool := false.
Definition fileA : bdf := mkBdf [1; 2; 3; 4] [mkCard "CQUAD4" 10 5 [1; 2; 3; 4]; mkCard "CTRIA3" 11 5 [1; 2; 3]; mkCard "CQUAD4" 12 7 [2; 3; 4; 1]; mkCard "CQUAD4" 13 5 [3; 4; 1; 2]]
  [(1, [("SPC1", [1; 2]); ("SPC1", [3])])].
Definition fileB : bdf := mkBdf [1; 2; 3; 4] [mkCard "CQUAD4" 10 6 [1; 2; 3; 4]; mkCard "CTRIA3" 11 5 [1; 2; 3]] [].
Definition fileW : bdf := mkBdf [1; 2; 3; 4] [mkCard "CQUAD4" 10 1 [1; 2; 3; 4]; mkCard "CQUAD4" 11 65537 [1; 2; 3; 4]] [].

Example C57_example : exists i m, read_model any_order fileA io0 = Ok (i, m) /\ NoDup (map c_eid (b_cards fileA)) /\ map m_sid (msh_elems m) = [1; 2; 1; 3].
Proof.
  eexists _, _. split; [vm_compute; reflexivity|]. split; [|reflexivity].
  cbn. repeat constructor; cbn; intuition discriminate.
Qed.
(** The reader keeps its table but restarts the numbering: after a second read different property and
    type pairs share a subdomain. *)
Theorem C57_second_read_refuted : exists h i m b i' m' e e', reads any_order h i m /\ read_model any_order b i = Ok (i', m') /\
  In e (msh_elems m') /\ In e' (msh_elems m') /\ m_type e <> m_type e' /\ m_sid e = m_sid e'.
Proof.
  exists [mkBdf [1; 2; 3; 4] [mkCard "CTRIA3" 10 5 [1; 2; 3]] []].
  destruct (read_model any_order (mkBdf [1; 2; 3; 4] [mkCard "CTRIA3" 10 5 [1; 2; 3]] []) io0) as [[i m]|] eqn:E; [|vm_compute in E; discriminate E].
  exists i, m, fileB. destruct (read_model any_order fileB i) as [[i' m']|] eqn:E'; [|vm_compute in E; injection E as <- <-; vm_compute in E'; discriminate E'].
  exists i', m'. assert (R := E). assert (R' := E'). vm_compute in E. injection E as EI EM. rewrite <- EI in E'. vm_compute in E'. injection E' as EI' EM'. subst m'.
  do 2 eexists. split; [apply (reads_more _ [] io0 (mkMesh [] [] [])); [constructor|exact R]|]. split; [reflexivity|].
  split; [left; reflexivity|]. split; [right; left; reflexivity|]. split; [discriminate|reflexivity].
Qed.
(** Property ids are narrowed to 16 bits: 1 and 65537 share a subdomain. *)
Theorem C57_wide_pid_refuted : exists b i m ps c e c' e', read_model any_order b io0 = Ok (i, m) /\ pairing b i m ps /\
  In (c, e) ps /\ In (c', e') ps /\ c_pid c <> c_pid c' /\ m_sid e = m_sid e'.
Proof.
  exists fileW. destruct (read_model any_order fileW io0) as [[i m]|] eqn:E; [|vm_compute in E; discriminate E].
  destruct (model_pairs _ _ _ _ _ inv0 E) as (ps & z & P & _).
  assert (L : map m_sid (msh_elems m) = [1; 1]) by (vm_compute in E; injection E as _ <-; reflexivity).
  exists i, m, ps. destruct P as (P1 & P2 & P3). assert (P0 := P1).
  destruct ps as [|[c e] [|[c' e'] [|]]]; cbn in P1; try (apply Permutation_length in P1; discriminate P1).
  exists c, e, c', e'. split; auto. split; [unfold pairing; auto|]. split; [left; auto|]. split; [right; left; auto|]. split.
  - intros X. assert (N : NoDup (map c_pid [c; c'])).
    { eapply Permutation_NoDup; [apply Permutation_map, Permutation_sym; exact P1|]. cbn. repeat constructor; cbn; intuition discriminate. }
    cbn in N. rewrite X in N. inversion N as [|? ? Y]. apply Y. left. auto.
  - rewrite <- P2 in L. cbn in L. injection L as -> ->. auto.
Qed.
(** After a second read the map from nodes to numbers still holds nodes of the first mesh. *)
Theorem C57_stale_nodes_refuted : exists h i m p n, reads any_order h i m /\
  find_ N.eqb (l2n i) p = Some n /\ find_ N.eqb (n2l i) n <> Some p /\ ~ In p (map snd (msh_nodes m)).
Proof.
  exists ([] ++ [mkBdf [1] [] []] ++ [mkBdf [1] [] []])%list. do 2 eexists. exists 0, 1. split.
  - rewrite app_assoc. eapply reads_more; [|vm_compute; reflexivity]. eapply reads_more; [constructor|vm_compute; reflexivity].
  - cbn. conjs; auto; [discriminate|]. intuition discriminate.
Qed.

(** Every element read has the shape its card names, and as many nodes as the card has. *)
Lemma find_type k t : find_ key_eqb type_map k = Some t -> In (k, t) type_map.
Proof.
  generalize type_map as l. induction l as [|[k' t'] l IH]; cbn [find_]; [discriminate|].
  destruct (key_eqb k k') eqn:E; [|right; auto]. intros H. injection H as <-. left. f_equal. unfold key_eqb in E.
  apply andb_true_iff in E. destruct E as (A & B). apply String.eqb_eq in A. apply Nat.eqb_eq in B. destruct k, k'; cbn in *; congruence.
Qed.
Theorem C57_element_types : forall lt h i m b i' m', reads lt h i m -> read_model lt b i = Ok (i', m') ->
  exists ps, Permutation (map fst ps) (b_cards b) /\ map snd ps = msh_elems m' /\
  forall c e, In (c, e) ps -> m_id e = c_eid c /\
    card_shape (c_type c) (length (c_nodes c)) = Some (fst (type_shape (m_type e))) /\
    snd (type_shape (m_type e)) = length (c_nodes c) /\ length (m_nodes e) = length (c_nodes c).
Proof.
  intros lt h i m b i' m' R H. assert (I := reads_inv _ _ _ _ R).
  destruct (model_pairs _ _ _ _ _ I H) as (ps & z' & (P1 & P2 & P3) & _). exists ps. split; auto. split; auto.
  intros c e C. pose proof (proj1 (Forall_forall _ _) P3 _ C) as (A & B & D). cbn [fst snd] in *. split; auto.
  assert (G : Forall (fun kt : key * etype => card_shape (fst (fst kt)) (snd (fst kt)) = Some (fst (type_shape (snd kt))) /\
     snd (type_shape (snd kt)) = snd (fst kt)) type_map) by (unfold type_map; repeat constructor).
  pose proof (proj1 (Forall_forall _ _) G _ (find_type _ _ B)) as (G1 & G2). cbn [fst snd] in G1, G2.
  split; auto. split; auto. clear - D. induction D; cbn; auto.
Qed.

(** ** C80 *)
(** The subdomains a property id owns. *)
Definition owned (i : io) (p s : N) : Prop := exists t, In ((p, t), s) (smap i).
Lemma prop_map_ok i : NoDup (map fst (prop_map i)) /\ forall p l, In (p, l) (prop_map i) -> l <> [] /\ forall s, In s l <-> owned i p s.
Proof.
  unfold prop_map, owned.
  assert (G : forall l m (done : list (skey * N)), NoDup (map fst m) -> (forall p, find_ N.eqb m p = None -> forall t s, ~ In ((p, t), s) done) ->
    (forall p x, In (p, x) m -> x <> [] /\ forall s, In s x <-> exists t, In ((p, t), s) done) ->
    let r := fold_left (fun m (e : skey * N) => upd_ N.eqb m (fst (fst e)) ((match find_ N.eqb m (fst (fst e)) with Some l => l | None => [] end) ++ [snd e])) l m in
    NoDup (map fst r) /\ forall p x, In (p, x) r -> x <> [] /\ forall s, In s x <-> exists t, In ((p, t), s) (done ++ l)).
  { induction l as [|[[p t] s] l IH]; intros m done A N B; cbn [fold_left fst snd].
    - rewrite app_nil_r. auto.
    -
      cbv zeta in *. assert (IH' := IH (upd_ N.eqb m p ((match find_ N.eqb m p with Some l0 => l0 | None => [] end) ++ [s])) (done ++ [((p, t), s)])).
      rewrite <- app_assoc in IH'. cbn [app] in IH'. apply IH'; clear IH IH'.
      + destruct (find_ N.eqb m p) as [x|] eqn:F; [rewrite (upd_keys _ _ _ _ _ F); auto|]. rewrite (upd_new _ _ _ _ F), map_app. cbn.
        eapply Permutation_NoDup; [apply Permutation_cons_append|]. constructor; auto. eapply Nast_Proofs.find_none; eauto. apply neqb_ok.
      + intros q. rewrite (find_upd _ neqb_ok). destruct (q =? p) eqn:E; [discriminate|]. intros X t0 s0. rewrite in_app_iff. intros [Y|[Y|[]]]; [eapply N; eauto|].
        injection Y as -> -> ->. rewrite N.eqb_refl in E. discriminate.
      + intros q x X. 
        assert (X' : (q = p /\ x = ((match find_ N.eqb m p with Some l => l | None => [] end) ++ [s])%list) \/ (q <> p /\ In (q, x) m)).
        { destruct (N.eq_dec q p) as [->|NE].
          - left. split; auto. apply (in_find _ neqb_ok) in X.
            + rewrite (find_upd _ neqb_ok), N.eqb_refl in X. congruence.
            + destruct (find_ N.eqb m p) as [y|] eqn:F; [rewrite (upd_keys _ _ _ _ _ F); auto|]. rewrite (upd_new _ _ _ _ F), map_app. cbn.
              eapply Permutation_NoDup; [apply Permutation_cons_append|]. constructor; auto. eapply Nast_Proofs.find_none; eauto. apply neqb_ok.
          - right. split; auto. destruct (upd_in_ _ _ _ _ _ _ neqb_ok X) as [(? & _)|]; auto. contradiction. }
        destruct X' as [(-> & ->)|(NE & X')].
        * split; [intros Z; apply app_eq_nil in Z; destruct Z; discriminate|]. intros s0. rewrite in_app_iff.
          destruct (find_ N.eqb m p) as [y|] eqn:F.
          -- apply (find_in _ neqb_ok) in F. destruct (B _ _ F) as (_ & B2). rewrite B2. split.
             ++ intros [(t0 & T)|[<-|[]]]; [exists t0; rewrite in_app_iff; auto|exists t; rewrite in_app_iff; right; left; auto].
             ++ intros (t0 & T). rewrite in_app_iff in T. destruct T as [T|[T|[]]]; [left; eauto|injection T as -> ->; right; left; auto].
          -- split.
             ++ intros [[]|[<-|[]]]. exists t; rewrite in_app_iff; right; left; auto.
             ++ intros (t0 & T). rewrite in_app_iff in T. destruct T as [T|[T|[]]]; [exfalso; eapply N; eauto|injection T as -> ->; right; left; auto].
        * destruct (B _ _ X') as (B1 & B2). split; auto. intros s0. rewrite B2. split; intros (t0 & T); exists t0; rewrite in_app_iff in *; auto.
          destruct T as [T|[T|[]]]; auto. injection T as <- <- <-. contradiction. }
  destruct (G (smap i) [] []) as (A & B); auto; [constructor|intros p x []].
Qed.
(** The map given to the caller lists for every property id exactly its subdomains. *)
Theorem C80_property_map : forall i p s, (exists l, In (p, l) (prop_map i) /\ In s l) <-> exists t, In ((p, t), s) (smap i).
Proof.
  intros i p s. destruct (prop_map_ok i) as (A & B). split.
  - intros (l & L & S). apply (B _ _ L). auto.
  - intros (t & T). assert (K : In p (map fst (prop_map i))).
    { unfold prop_map. assert (G : forall l m, In p (map fst m) \/ In ((p, t), s) l ->
        In p (map fst (fold_left (fun m (e : skey * N) => upd_ N.eqb m (fst (fst e)) ((match find_ N.eqb m (fst (fst e)) with Some l => l | None => [] end) ++ [snd e])) l m))).
      { induction l as [|e l IH]; intros m [X|X]; cbn [fold_left]; auto; [contradiction| |].
        - apply IH. left. destruct (find_ N.eqb m (fst (fst e))) as [y|] eqn:F; [rewrite (upd_keys _ _ _ _ _ F); auto|]. rewrite (upd_new _ _ _ _ F), map_app, in_app_iff. auto.
        - apply IH. destruct X as [->|X]; auto. left. cbn [fst]. destruct (find_ N.eqb m p) as [y|] eqn:F.
          + rewrite (upd_keys _ _ _ _ _ F). apply in_map_iff. exists (p, y). split; auto. apply (find_in _ neqb_ok); auto.
          + rewrite (upd_new _ _ _ _ F), map_app, in_app_iff. cbn. auto. }
      apply G. auto. }
    apply in_map_iff in K. destruct K as ([p' l] & <- & L). exists l. split; auto. apply (B _ _ L). exists t. auto.
Qed.
(** The printed table is right in its first row. *)
Theorem C80_first_row_partial : forall i p l r, print_table i = (p, l) :: r -> forall s, In s l <-> exists t, In ((p, t), s) (smap i).
Proof.
  intros i p l r H s. unfold print_table in H. destruct (prop_map i) as [|[p' l'] q] eqn:E; [discriminate|]. cbn in H. injection H as <- <- _.
  destruct (prop_map_ok i) as (_ & B). apply B. rewrite E. left. auto.
Qed.
(** Every later row also lists the subdomains of the rows before it. *)
Theorem C80_later_rows_refuted : exists b i m p l s, read_model any_order b io0 = Ok (i, m) /\ In (p, l) (print_table i) /\ In s l /\
  ~ exists t, In ((p, t), s) (smap i).
Proof.
  exists (mkBdf [1; 2; 3] [mkCard "CTRIA3" 1 1 [1; 2; 3]; mkCard "CTRIA3" 2 2 [1; 2; 3]] []). do 2 eexists. exists 2, [1; 2], 1.
  split; [vm_compute; reflexivity|]. cbn. conjs; auto. intros (t & [X|[X|[]]]); discriminate.
Qed.
Theorem C80_rows_accumulate : forall i k p l, nth_error (print_table i) k = Some (p, l) ->
  l = flat_map snd (firstn (S k) (prop_map i)).
Proof.
  intros i. unfold print_table. assert (G : forall m a k p l, nth_error (print_rows m a) k = Some (p, l) -> l = (a ++ flat_map snd (firstn (S k) m))%list).
  { induction m as [|[q x] m IH]; intros a k p l H; [destruct k; discriminate|]. destruct k; cbn [print_rows nth_error] in H.
    - injection H as _ <-. cbn. rewrite app_nil_r. auto.
    - apply IH in H. rewrite H. cbn [firstn flat_map snd]. rewrite <- app_assoc. auto. }
  intros k p l H. apply G in H. auto.
Qed.

(** ** C81 *)
Lemma sname_eqb_ok a b : sname_eqb a b = true <-> a = b.
Proof.
  unfold sname_eqb. rewrite !andb_true_iff, N.eqb_eq, String.eqb_eq, Nat.eqb_eq. destruct a as [[? ?] ?], b as [[? ?] ?]; cbn. split; [intros ((-> & ->) & ->); auto|intros H; injection H; auto].
Qed.
Lemma number_names id l : forall i n, In n (map fst (number_cards id l i)) -> fst (fst n) = id /\ (i <= snd n)%nat.
Proof. induction l as [|[t ns] l IH]; intros i n; cbn; [tauto|]. intros [<-|X]; [cbn; auto|]. apply IH in X. intuition lia. Qed.
Lemma number_nodup id l : forall i, NoDup (map fst (number_cards id l i)).
Proof.
  induction l as [|[t ns] l IH]; intros i; cbn; constructor; auto. intros X. apply number_names in X. cbn in X. lia.
Qed.
Lemma get_spcs_perm slt b : NoDup (map fst (b_spcs b)) ->
  Permutation (get_spcs slt b) (flat_map (fun e : N * list (string * list N) => number_cards (fst e) (snd e) 1) (b_spcs b)).
Proof.
  intros ND. unfold get_spcs.
  assert (NN : NoDup (map fst (flat_map (fun e : N * list (string * list N) => number_cards (fst e) (snd e) 1) (b_spcs b)))).
  { induction (b_spcs b) as [|[id l] r IH]; cbn in *; [constructor|]. inversion ND; subst. rewrite map_app. specialize (IH H2).
    assert (D : forall n, In n (map fst (number_cards id l 1)) -> ~ In n (map fst (flat_map (fun e : N * list (string * list N) => number_cards (fst e) (snd e) 1) r))).
    { intros n X Y. apply number_names in X. destruct X as (X & _). apply H1. rewrite in_map_iff in Y. destruct Y as (q & <- & Y).
      apply in_flat_map in Y. destruct Y as ([id' l'] & Y1 & Y2). cbn in Y2. apply (in_map fst) in Y2. apply number_names in Y2. destruct Y2 as (Y2 & _).
      apply in_map_iff. exists (id', l'). split; auto. cbn. congruence. }
    pose proof (number_nodup id l 1) as M. revert M D. generalize (map fst (number_cards id l 1)). induction l0 as [|a l0 IH0]; cbn; auto. intros M D. inversion M; subst.
    constructor; [|apply IH0; auto]. rewrite in_app_iff. intros [X|X]; [contradiction|]. eapply D; eauto. }
  revert NN. generalize (flat_map (fun e : N * list (string * list N) => number_cards (fst e) (snd e) 1) (b_spcs b)). intros l NN.
  assert (G : forall l m, NoDup (map fst (m ++ l)) -> Permutation (fold_left (fun m (e : sname * list N) => match find_ sname_eqb m (fst e) with Some _ => upd_ sname_eqb m (fst e) (snd e) | None => ins_ slt m (fst e) (snd e) end) l m) (m ++ l)).
  { clear. induction l as [|[n x] l IH]; intros m NN; cbn [fold_left fst snd]; [rewrite app_nil_r; auto|].
    rewrite map_app in NN. cbn in NN. assert (F : find_ sname_eqb m n = None).
    { destruct (find_ sname_eqb m n) eqn:F; auto. apply NoDup_remove_2 in NN. exfalso. apply NN. rewrite in_app_iff. left. apply in_map_iff. exists (n, l0). split; auto. apply (find_in _ sname_eqb_ok); auto. }
    rewrite F. pose proof (ins_perm slt m n x) as P. rewrite IH.
    - rewrite P. cbn. apply Permutation_middle.
    - eapply Permutation_NoDup; [apply Permutation_sym, Permutation_map, Permutation_app_tail; exact P|]. cbn. rewrite map_app.
      eapply Permutation_NoDup; [apply Permutation_sym, Permutation_middle|]. auto. }
  apply (G l []). auto.
Qed.
Lemma add_nodes_ok i m j : forall l b b', add_nodes l j i m b = Ok b' -> exists ps, b' = (b ++ map (fun p => (p, j)) ps)%list /\ Forall2 (fun n p => find_ N.eqb (n2l i) n = Some p) l ps.
Proof.
  induction l as [|n l IH]; intros b b' H; cbn in H.
  - injection H as <-. exists []. split; [rewrite app_nil_r; auto|constructor].
  - apply bind_ok_ in H. destruct H as (p & P & H). apply IH in H. destruct H as (ps & -> & F). exists (p :: ps). split; [rewrite <- app_assoc; auto|].
    constructor; auto. unfold node_at in P. destruct (find_ N.eqb (n2l i) n); [|discriminate]. destruct (existsb _ _); [|discriminate]. congruence.
Qed.
Lemma add_spcs_ok i m : forall l j b b', add_spcs l j i m b = Ok b' -> forall p k, In (p, k) b' <-> In (p, k) b \/ exists q s n, nth_error l q = Some s /\ In n s /\ find_ N.eqb (n2l i) n = Some p /\ k = j + N.of_nat q.
Proof.
  induction l as [|s l IH]; intros j b b' H p k; cbn in H.
  - injection H as <-. split; auto. intros [X|(q & s & n & X & _)]; auto. destruct q; discriminate.
  - apply bind_ok_ in H. destruct H as (b1 & B & H). rewrite (IH _ _ _ H). apply add_nodes_ok in B. destruct B as (ps & -> & F). rewrite in_app_iff. split.
    + intros [[X|X]|(q & s' & n & A & B & C & D)]; auto.
      * right. exists 0%nat, s. apply in_map_iff in X. destruct X as (p' & X & Y). injection X as -> <-.
        assert (Z : exists n, In n s /\ find_ N.eqb (n2l i) n = Some p). { clear - F Y. induction F; [contradiction|]. destruct Y as [->|Y]; [exists x; split; [left|]; auto|]. destruct (IHF Y) as (n & ? & ?). exists n. split; [right|]; auto. }
        destruct Z as (n & Z1 & Z2). exists n. conjs; auto. cbn. lia.
      * right. exists (S q), s', n. conjs; auto. lia.
    + intros [X|(q & s' & n & A & B & C & D)]; auto. destruct q as [|q]; cbn in A.
      * injection A as <-. left. right. apply in_map_iff. exists p. replace k with j by lia. split; auto.
        clear - F B C. induction F; [contradiction|]. destruct B as [->|B]; [left; congruence|right; auto].
      * right. exists q, s', n. conjs; auto. lia.
Qed.
(** Reading a file: one node boundary for every SPC card, numbered 1, 2, ... in the order of the names,
    with exactly the nodes of the card. *)
Theorem C81_boundaries_partial : forall lt slt b i m, read_file lt slt b io0 = Ok (i, m) -> NoDup (map fst (b_spcs b)) ->
  exists cards : list (N * string * nat * list N),
  Permutation cards (flat_map (fun e : N * list (string * list N) => number_cards (fst e) (snd e) 1) (b_spcs b)) /\
  forall p j, In (p, j) (msh_bnd m) <-> exists k name ns n, nth_error cards k = Some (name, ns) /\ In n ns /\ find_ N.eqb (n2l i) n = Some p /\ j = N.of_nat k + 1.
Proof.
  intros lt slt b i m H ND. exists (get_spcs slt b). split; [apply get_spcs_perm; auto|].
  unfold read_file in H. apply bind_ok_ in H. destruct H as ((i', m') & R & H). apply bind_ok_ in H. destruct H as (bd & B & H). cbn [fst snd] in *. injection H as <- <-.
  intros p j. cbn [msh_bnd]. rewrite (add_spcs_ok _ _ _ _ _ _ B). cbn [In]. split.
  - intros [[]|(q & s & n & X & Y & Z & W)]. rewrite nth_error_map in X. destruct (nth_error (get_spcs slt b) q) as [[nm ns]|] eqn:E; [|discriminate]. cbn in X. injection X as <-.
    exists q, nm, ns, n. conjs; auto. lia.
  - intros (q & nm & ns & n & X & Y & Z & W). right. exists q, ns, n. rewrite nth_error_map. unfold sname in *. rewrite X. conjs; auto. lia.
Qed.
Example C81_example : exists i m, read_file any_order any_order fileA io0 = Ok (i, m) /\ NoDup (map fst (b_spcs fileA)) /\ msh_bnd m = [(0, 1); (1, 1); (2, 2)].
Proof. do 2 eexists. split; [vm_compute; reflexivity|]. split; [repeat constructor; cbn; tauto|reflexivity]. Qed.
(** The nodes of one SPC id are spread over several boundaries when the id has several cards. *)
Theorem C81_one_per_id_refuted : exists b i m id t1 t2 ns1 ns2 n1 n2 p1 p2,
  read_file any_order any_order b io0 = Ok (i, m) /\ b_spcs b = [(id, [(t1, ns1); (t2, ns2)])] /\ In n1 ns1 /\ In n2 ns2 /\
  find_ N.eqb (n2l i) n1 = Some p1 /\ find_ N.eqb (n2l i) n2 = Some p2 /\ ~ exists j, In (p1, j) (msh_bnd m) /\ In (p2, j) (msh_bnd m).
Proof.
  exists fileA. do 2 eexists. exists 1, "SPC1", "SPC1", [1; 2], [3], 1, 3, 0, 2.
  split; [vm_compute; reflexivity|]. cbn. conjs; auto. intros (j & [X|[X|[X|[]]]] & [Y|[Y|[Y|[]]]]); try discriminate; try (injection X; intros; subst; discriminate).
Qed.
(** Reading a model object adds no boundaries. *)
Theorem C81_model_object_refuted : forall lt b i m, read_model lt b io0 = Ok (i, m) -> msh_bnd m = [].
Proof.
  intros lt b i m H. pose proof (read_nodes_inv (b_nodes b) io0 (mkMesh [] [] [])) as R.
  destruct (read_model_ok _ _ _ _ _ inv0 H) as (I' & i1 & m1 & z' & E & ps & A1 & A2 & A3 & A4 & A5 & A6 & A7 & A8 & A9 & _).
  rewrite E in R. destruct R as (R1 & R2 & R3 & R4 & R5 & R6 & R7 & _); [|rewrite A9, R7; auto].
  unfold nodes_inv; conjs; cbn; intros ? ? X; discriminate X.
Qed.
(** An element that names a node of an earlier file only touches a deleted node. *)
Theorem C57_old_node_faults : exists h i m b, reads any_order h i m /\ read_model any_order b i = Fault UseAfterFree.
Proof.
  exists ([] ++ [mkBdf [1; 2; 3] [] []])%list. do 2 eexists. exists (mkBdf [1; 2] [mkCard "CTRIA3" 1 1 [1; 2; 3]] []). split.
  - eapply reads_more; [constructor|vm_compute; reflexivity].
  - vm_compute. reflexivity.
Qed.

(** ** C82 *)
Open Scope R_scope.
Lemma bush_eps_pos : 0 < bush_eps.
Proof. unfold bush_eps. apply Rdiv_lt_0_compat; apply IZR_lt; reflexivity. Qed.
(** An axis with no zero component: the shift is along the axis, in its direction, and every
    component of it is at least the tolerance. *)
Theorem C82_shift_partial : forall i0 i1 i2, i0 <> 0 -> i1 <> 0 -> i2 <> 0 ->
  exists k, 0 < k /\ bush_shift i0 i1 i2 = Ok (k * i0, k * i1, k * i2) /\
  bush_eps <= Rabs (k * i0) /\ bush_eps <= Rabs (k * i1) /\ bush_eps <= Rabs (k * i2).
Proof.
  intros i0 i1 i2 N0 N1 N2. assert (EP := bush_eps_pos). unfold bush_shift.
  set (mn := min3 (Rabs (bush_eps * i0)) (Rabs (bush_eps * i1)) (Rabs (bush_eps * i2))).
  assert (P : forall x, x <> 0 -> 0 < Rabs (bush_eps * x)) by (intros; apply Rabs_pos_lt; apply Rmult_integral_contrapositive; split; [lra|auto]).
  assert (M : 0 < mn) by (unfold mn, min3; repeat apply Rmin_glb_lt; auto).
  assert (L0 : mn <= Rabs (bush_eps * i0)) by apply Rmin_l.
  assert (L1 : mn <= Rabs (bush_eps * i1)) by (unfold mn, min3; eapply Rle_trans; [apply Rmin_r|apply Rmin_l]).
  assert (L2 : mn <= Rabs (bush_eps * i2)) by (unfold mn, min3; eapply Rle_trans; [apply Rmin_r|apply Rmin_r]).
  destruct (rltb mn bush_eps) eqn:E.
  - destruct (reqb mn 0) eqn:E2; [rbh E2; lra|]. exists (bush_eps * (bush_eps / mn)).
    assert (Q : 0 < bush_eps / mn) by (apply Rdiv_lt_0_compat; auto).
    assert (B : forall x, mn <= Rabs (bush_eps * x) -> bush_eps <= Rabs (bush_eps * (bush_eps / mn) * x)).
    { intros x X. replace (bush_eps * (bush_eps / mn) * x) with ((bush_eps / mn) * (bush_eps * x)) by (field; lra).
      rewrite Rabs_mult, (Rabs_pos_eq (bush_eps / mn)) by lra. replace bush_eps with ((bush_eps / mn) * mn) at 1 by (field; lra). apply Rmult_le_compat_l; lra. }
    conjs; auto; [apply Rmult_lt_0_compat; auto|]. apply f_equal; apply f_equal2; [apply f_equal2|]; field; lra.
  - apply rltb_false in E. exists bush_eps. conjs; auto; unfold mn in *; lra.
Qed.
Example C82_example : 1 <> 0 /\ 2 <> 0 /\ -3 <> 0.
Proof. repeat split; lra. Qed.
(** An axis along a coordinate direction has zero components: division by zero. *)
Theorem C82_axis_refuted : forall i0 i1 i2, i0 = 0 \/ i1 = 0 \/ i2 = 0 -> bush_shift i0 i1 i2 = Fault DivByZero.
Proof.
  intros i0 i1 i2 H. assert (EP := bush_eps_pos). unfold bush_shift.
  set (mn := min3 (Rabs (bush_eps * i0)) (Rabs (bush_eps * i1)) (Rabs (bush_eps * i2))).
  assert (L0 : mn <= Rabs (bush_eps * i0)) by apply Rmin_l.
  assert (L1 : mn <= Rabs (bush_eps * i1)) by (unfold mn, min3; eapply Rle_trans; [apply Rmin_r|apply Rmin_l]).
  assert (L2 : mn <= Rabs (bush_eps * i2)) by (unfold mn, min3; eapply Rle_trans; [apply Rmin_r|apply Rmin_r]).
  assert (P : 0 <= mn) by (unfold mn, min3; repeat apply Rmin_glb; apply Rabs_pos).
  assert (Z : mn = 0). { destruct H as [->|[->| ->]]; rewrite Rmult_0_r, Rabs_R0 in *; lra. }
  rewrite Z. destruct (rltb 0 bush_eps) eqn:E; [|rbh E; lra]. destruct (reqb 0 0) eqn:E2; [auto|rbh E2; lra].
Qed.

Print Assumptions C57_subdomains_partial.
Print Assumptions C57_same_subdomain.
Print Assumptions C57_element_types.
Print Assumptions C57_node_maps_partial.
Print Assumptions C57_element_maps_partial.
Print Assumptions C57_second_read_refuted.
Print Assumptions C57_wide_pid_refuted.
Print Assumptions C80_property_map.
Print Assumptions C80_later_rows_refuted.
Print Assumptions C81_boundaries_partial.
Print Assumptions C82_shift_partial.
Print Assumptions C82_axis_refuted.
