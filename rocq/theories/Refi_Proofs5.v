From Coq Require Import List Arith NArith ZArith Lia Bool Reals Lra.
From Verif Require Import Base BaseLemmas RBool Filt_Model Filt_Proofs2 Isec_Model Isec_Spec Isec_Proofs Isec_Proofs2 Isec_Proofs3 Isec_Proofs4 Isec_Proofs5 Isec_Props Refi_Model Refi_Spec Refi_Proofs Refi_Proofs2 Refi_Proofs3 Refi_Proofs4.
Import ListNotations.
Open Scope nat_scope.

(** ** Which node answers a request *)
Definition answers (s : state) (a b : nat) (d : bool) (p : nat) : Prop :=
  exists n1 n2, find_node (snd s) a = Some n1 /\ find_node (snd s) b = Some n2 /\ get (rf_map (fst s)) (mkkey n1 n2) d = Some p.
Lemma answers_later s s' a b d p : later s s' -> answers s a b d p -> answers s' a b d p.
Proof. intros (A & B & _) (n1 & n2 & F1 & F2 & G). exists n1, n2. auto. Qed.
Lemma answers_sym s a b d p : answers s a b d p -> answers s b a d p.
Proof. intros (n1 & n2 & F1 & F2 & G). exists n2, n1. rewrite mkkey_sym. auto. Qed.
Lemma add_node_answers x st pos b1 b2 s p s' : mapok st (fst s) (snd s) -> add_node x st pos b1 b2 s = Ok (p, s') ->
  answers s' b1 b2 pos p /\
  (s' = s \/ (p = ms_fresh (snd s) /\ find_node (snd s') p = Some (mkNode p (max_node_id (snd s)) x) /\
     forall k d q, get (rf_map (fst s')) k d = Some q -> q = p \/ get (rf_map (fst s)) k d = Some q)).
Proof.
  destruct s as [r m], s' as [r' m']. intros M H. cbn [fst snd] in *.
  destruct (add_node_inv _ _ _ _ _ _ _ _ _ _ H) as (_ & n1 & n2 & F1 & F2 & D). cbv zeta in D.
  destruct D as [(-> & -> & D)|(-> & -> & D & ->)].
  - split; auto. exists n1, n2. split; auto. split; auto. unfold get. cbn [fst snd].
    destruct st; destruct pos; tauto.
  - pose proof (fun k d q e => get_made st r (mkkey n1 n2) k e d pos (ms_fresh m) q) as G.
    assert (N' : if st then get (rf_map r) (mkkey n1 n2) pos = None else get (rf_map r) (mkkey n1 n2) true = None /\ get (rf_map r) (mkkey n1 n2) false = None).
    { unfold get, mkkey. destruct st; [destruct pos; auto|]. split; auto. 
      pose proof (k_weak _ _ _ M eq_refl (mkkey n1 n2)) as Wk. unfold get, mkkey in Wk. rewrite <- Wk. auto. }
    split.
    + exists n1, n2. cbn [fst snd]. split; [|split].
      * unfold find_node in *. cbn. apply find_app_some. auto.
      * unfold find_node in *. cbn. apply find_app_some. auto.
      * cbn. apply (G _ _ _ _ N' eq_refl). left. auto.
    + right. split; auto. split.
      * unfold find_node. cbn. pose proof (k_fresh _ _ _ M) as K. clear - K. induction (ms_nodes m) as [|n l IH]; cbn.
        -- rewrite Nat.eqb_refl. auto.
        -- rewrite (proj2 (Nat.eqb_neq _ _)); [apply IH; intros; apply K; right; auto|].
           specialize (K n (or_introl eq_refl)). lia.
      * intros k d q Q. cbn in Q. apply (G _ _ _ _ N' eq_refl) in Q. destruct Q as [(-> & _)|Q]; auto.
Qed.

(** Equal answers. *)
Lemma find_id m a b n1 n2 : NoDup (map nd_id (ms_nodes m)) -> find_node m a = Some n1 -> find_node m b = Some n2 -> nd_id n1 = nd_id n2 -> a = b.
Proof.
  intros N F1 F2 E. apply find_some in F1. apply find_some in F2. destruct F1 as (A & <-), F2 as (B & <-). f_equal.
  clear - N A B E. induction (ms_nodes m) as [|n l IH]; [destruct A|]. cbn in N. inversion N; subst.
  destruct A as [->|A], B as [->|B]; auto.
  - exfalso. apply H1. rewrite E. apply in_map; auto.
  - exfalso. apply H1. rewrite <- E. apply in_map; auto.
Qed.
Lemma mkkey_eq n1 n2 n3 n4 : mkkey n1 n2 = mkkey n3 n4 ->
  (nd_id n1 = nd_id n3 /\ nd_id n2 = nd_id n4) \/ (nd_id n1 = nd_id n4 /\ nd_id n2 = nd_id n3).
Proof. unfold mkkey. intros H. injection H as A B. lia. Qed.
Lemma answers_inj st s a b d p a' b' d' : mapok st (fst s) (snd s) -> answers s a b d p -> answers s a' b' d' p ->
  ((a = a' /\ b = b') \/ (a = b' /\ b = a')) /\ (st = true -> d = d').
Proof.
  intros M (n1 & n2 & F1 & F2 & G) (n3 & n4 & F3 & F4 & G'). destruct (k_inj _ _ _ M _ _ _ _ _ G G') as (K & D). split; auto.
  pose proof (k_ids _ _ _ M) as N. destruct (mkkey_eq _ _ _ _ K) as [(A & B)|(A & B)].
  - left. split; eapply find_id; eauto.
  - right. split; eapply find_id; eauto.
Qed.
Lemma answers_fun st s a b d p d' q : mapok st (fst s) (snd s) -> (st = true -> d = d') ->
  answers s a b d p -> answers s a b d' q -> p = q.
Proof.
  intros M D (n1 & n2 & F1 & F2 & G) (n3 & n4 & F3 & F4 & G'). rewrite F1 in F3. rewrite F2 in F4. injection F3 as <-. injection F4 as <-.
  destruct st.
  - rewrite D in G by auto. congruence.
  - pose proof (k_weak _ _ _ M eq_refl (mkkey n1 n2)) as Wk. destruct d, d'; congruence.
Qed.

(** ** Request histories *)
Lemma serve_ok st l : forall s ps s', mapok st (fst s) (snd s) -> serve st l s = Ok (ps, s') ->
  length ps = length l /\ mapok st (fst s') (snd s') /\ later s s' /\
  (forall i q p, nth_error l i = Some q -> nth_error ps i = Some p ->
     answers s' (q_a q) (q_b q) (q_pos q) p /\
     ((exists k d, get (rf_map (fst s)) k d = Some p) \/
      exists j q', j <= i /\ nth_error l j = Some q' /\ nth_error ps j = Some p /\ npt (snd s') p = q_pt q')).
Proof.
  induction l as [|q l IH]; intros s ps s' M H; cbn [serve] in H.
  - injection H as <- <-. split; auto. split; auto. split; [apply later_refl|]. intros [|i] q p E; discriminate.
  - bind_inv H. bind_inv H. injection H as <- <-. destruct v as [p0 s1], v0 as [ps s2]. cbn [fst snd] in *.
    destruct (add_node_answers _ _ _ _ _ _ _ _ M E) as (A1 & A2).
    pose proof (mapok_node _ _ _ _ _ _ _ _ E M) as M1.
    pose proof (later_step _ _ _ M (st_node _ _ _ _ _ _ _ _ E)) as L1.
    destruct (IH _ _ _ M1 E0) as (LN & M2 & L2 & P). split; [cbn; auto|]. split; auto. split; [eapply later_trans; eauto|].
    intros [|i] q' p E1 E2; cbn [nth_error] in E1, E2.
    + injection E1 as <-. injection E2 as <-. split; [eapply answers_later; eauto|].
      destruct A2 as [->|(-> & F & _)].
      * left. destruct A1 as (n1 & n2 & _ & _ & G). eauto.
      * right. exists 0, q. split; auto. split; auto. split; auto. destruct L2 as (L2 & _). specialize (L2 _ _ F).
        unfold npt. rewrite L2. auto.
    + destruct (P i q' p E1 E2) as (Q1 & Q2). split; auto. destruct Q2 as [(k & d & G)|(j & q'' & J1 & J2 & J3 & J4)].
      * destruct A2 as [->|(-> & F & B)]; [left; eauto|]. destruct (B _ _ _ G) as [->|G']; [|left; eauto].
        right. exists 0, q. split; [lia|]. split; auto. split; auto. destruct L2 as (L2 & _). specialize (L2 _ _ F).
        unfold npt. rewrite L2. auto.
      * right. exists (S j), q''. split; [lia|]. auto.
Qed.
Lemma serve_total st l : forall s, sane st s -> (forall q, In q l -> In (q_a q) (map nd_ptr (ms_nodes (snd s))) /\ In (q_b q) (map nd_ptr (ms_nodes (snd s)))) ->
  exists y, serve st l s = Ok y.
Proof.
  induction l as [|q l IH]; intros s S H; cbn [serve]; eauto. destruct s as [r m]. destruct S as (I & M).
  destruct (H q (or_introl eq_refl)) as (H1 & H2).
  destruct (add_node_total (q_pt q) st (q_pos q) (q_a q) (q_b q) r m I M H1 H2) as (p & s' & A). rewrite A. cbn [bind snd].
  pose proof (ss_one _ _ _ (st_node _ _ _ _ _ _ _ _ A)) as ST.
  destruct (IH s') as (y & ->); [eapply sane_steps; eauto; split; auto| |cbn; eauto].
  intros q' Hq. pose proof (later_steps _ _ _ ST M) as L. destruct (H q' (or_intror Hq)). split; eapply nodes_later; eauto.
Qed.

(** ** Connectivity of the children *)
Definition share_of (s : state) (a b : nat) (d : bool) : nat :=
  match find_node (snd s) a, find_node (snd s) b with
  | Some n1, Some n2 => match get (rf_map (fst s)) (mkkey n1 n2) d with Some p => p | None => 0 end
  | _, _ => 0
  end.
Lemma share_answers s a b d p : answers s a b d p -> share_of s a b d = p.
Proof. intros (n1 & n2 & F1 & F2 & G). unfold share_of. rewrite F1, F2, G. auto. Qed.
Lemma share_sym s a b d : share_of s a b d = share_of s b a d.
Proof. unfold share_of. destruct (find_node _ a), (find_node _ b); auto. rewrite mkkey_sym. auto. Qed.

Definition uses (sE : state) (c : cell) (r : result) (d : bool) (v : vertex) : Prop :=
  match v with
  | Old k => k < length (ce_conn c)
  | Made j => exists nd b1 b2 p, nth_error (r_made r) j = Some nd /\ nth_error (ce_conn c) (fst (m_bound nd)) = Some b1 /\
      nth_error (ce_conn c) (snd (m_bound nd)) = Some b2 /\ answers sE b1 b2 d p
  end.
Lemma child_conn a c r pos vs : forall s conn s' sE, sane (a_strong a) s -> child_nodes a c r pos vs s = Ok (conn, s') ->
  later s' sE ->
  conn = piece_conn (share_of sE) c r pos (mkSub vs 0) /\ (forall v, In v vs -> uses sE c r pos v).
Proof.
  induction vs as [|[k|j] vs IH]; intros s conn s' sE S H L; cbn [child_nodes] in H.
  - injection H as <- <-. split; auto. intros v [].
  - destruct (nth_error (ce_conn c) k) as [p|] eqn:E; [|discriminate]. bind_inv H. injection H as <- <-. destruct v as [conn s'].
    destruct (IH _ _ _ _ S E0 L) as (A & B). cbn [fst snd]. split.
    + unfold piece_conn in *. cbn [s_vert map] in *. rewrite (nth_error_nth _ _ _ E). f_equal. auto.
    + intros v [<-|Hv]; auto. cbn. apply nth_error_Some. congruence.
  - destruct (nth_error (r_made r) j) as [nd|] eqn:EJ; [|discriminate].
    destruct (nth_error (ce_conn c) (fst _)) as [b1|] eqn:E1; [|discriminate].
    destruct (nth_error (ce_conn c) (snd _)) as [b2|] eqn:E2; [|discriminate].
    bind_inv H. bind_inv H. injection H as <- <-. destruct v as [p s1], v0 as [conn s'']. cbn [fst snd] in *.
    destruct (add_node_answers _ _ _ _ _ _ _ _ (proj2 S) E) as (A1 & _).
    match type of E0 with child_nodes _ _ _ _ _ ?x = _ => set (s2 := x) in * end.
    assert (T1 : steps (a_strong a) s1 s2).
    { unfold s2. destruct s1. destruct (m_hang nd); [apply ss_one; apply st_hang|constructor]. }
    assert (S1 : sane (a_strong a) s1) by (eapply sane_steps; [apply ss_one; eapply st_node; eauto|auto]).
    assert (S2 : sane (a_strong a) s2) by (eapply sane_steps; eauto).
    pose proof (later_steps _ _ _ T1 (proj2 S1)) as L1.
    pose proof (later_steps _ _ _ (steps_child _ _ _ _ _ _ _ E0) (proj2 S2)) as L2. cbn [snd] in L2.
    assert (A2 : answers sE b1 b2 pos p).
    { eapply answers_later; [|exact A1]. eapply later_trans; [exact L1|]. eapply later_trans; eauto. }
    destruct (IH _ _ _ _ S2 E0 L) as (A & B). split.
    + unfold piece_conn in *. cbn [s_vert map] in *. rewrite EJ, (nth_error_nth _ _ _ E1), (nth_error_nth _ _ _ E2), (share_answers _ _ _ _ _ A2).
      f_equal. auto.
    + intros v [<-|Hv]; auto. cbn. exists nd, b1, b2, p. auto.
Qed.

Lemma same_made r r' j nd : same_result r r' -> nth_error (r_made r) j = Some nd ->
  exists nd', nth_error (r_made r') j = Some nd' /\ mview nd' = mview nd.
Proof.
  intros (_ & _ & _ & _ & _ & _ & _ & M & _) H. apply (map_nth_error mview) in H. rewrite M in H.
  clear M. revert H. generalize (r_made r'). intros l. revert j. induction l as [|x l IH]; intros [|j] H; cbn [nth_error map] in *; try discriminate; eauto.
  exists x. split; auto. congruence.
Qed.
Lemma same_result_sym r r' : same_result r r' -> same_result r' r.
Proof. unfold same_result. intuition. Qed.
Lemma piece_conn_same sh c r r' d sb : same_result r r' -> piece_conn sh c r d sb = piece_conn sh c r' d sb.
Proof.
  intros S. unfold piece_conn. apply map_ext. intros [k|j]; auto.
  destruct (nth_error (r_made r) j) as [nd|] eqn:E.
  - destruct (same_made _ _ _ _ S E) as (nd' & -> & V). unfold mview in V. injection V as _ V1 _ _. rewrite V1. auto.
  - destruct (nth_error (r_made r') j) as [nd|] eqn:E'; auto.
    destruct (same_made _ _ _ _ (same_result_sym _ _ S) E') as (nd' & E2 & _). congruence.
Qed.
Lemma uses_same sE c r r' d v : same_result r r' -> uses sE c r d v -> uses sE c r' d v.
Proof.
  intros S. destruct v as [k|j]; auto. cbn. intros (nd & b1 & b2 & p & A & B & C & D).
  destruct (same_made _ _ _ _ S A) as (nd' & E & V). exists nd', b1, b2, p. unfold mview in V. injection V as _ V _ _. rewrite V. auto.
Qed.
Lemma piece_child_same a sh c r r' d j k : same_result r r' -> piece_child a sh c r d j k -> piece_child a sh c r' d j k.
Proof.
  intros S (H & sb & A & B & C & D). pose proof S as (_ & _ & _ & P & N & SB & _).
  split; [destruct d; congruence|]. exists sb. split; [congruence|]. rewrite <- (piece_conn_same _ _ _ _ _ _ S). auto.
Qed.
Lemma side_nodes_same c r r' : same_result r r' -> side_nodes c r = side_nodes c r'.
Proof. intros (M & _ & _ & _ & _ & _ & _ & _ & N & E). unfold side_nodes. rewrite M, N, E. auto. Qed.
(** The copy in terms of the list the code builds. *)
Definition copy_made (a : args) (share : nat -> nat -> bool -> nat) (c : cell) (r : result) (k : cell) : Prop :=
  exists sn, side_nodes c r = Ok sn /\
    ce_conn k = map (fun p => if existsb (Nat.eqb p) sn then share p p false else p) (ce_conn c) /\
    ce_type k = ce_type c /\ ce_sub k = sub16 (ce_sub c + a_neg a).
Lemma copy_child_same a sh c r r' k : same_result r r' -> copy_made a sh c r k -> copy_made a sh c r' k.
Proof. intros S (sn & A & B). exists sn. rewrite <- (side_nodes_same _ _ _ S). auto. Qed.

Section Children.
Variables (a : args) (m0 : mesh) (sE : state).
Definition isect (c : cell) (r : result) : Prop := init (a_phi a) (cell_elem m0 c) (max_elem_id m0) (max_node_id m0) = Ok r.
Definition child (k : cell) : Prop :=
  exists c r, In c (ms_cells m0) /\ isect c r /\
   ((through (r_mode r) = true /\ exists d j, piece_child a (share_of sE) c r d j k /\
       forall sb, nth_error (r_subs r) j = Some sb -> forall v, In v (s_vert sb) -> uses sE c r d v) \/
    (a_strong a = true /\ touches r = true /\ copy_made a (share_of sE) c r k /\
       exists sn, side_nodes c r = Ok sn /\ forall p, In p (ce_conn c) -> In p sn -> exists q, answers sE p p false q)).
Definition newgood (s : state) : Prop := forall k, In k (ms_cells (snd s)) -> In (ce_ptr k) (rf_new_elems (fst s)) -> child k.

Hypothesis W : wf m0.

Lemma ext_cell_fresh r m c : ext m0 r m -> In c (ms_cells m) -> ce_ptr c < ms_fresh m.
Proof.
  intros E H. apply (in_map ce_ptr) in H. rewrite (ext_cell_ptrs _ _ _ E), in_app_iff in H. destruct H as [H|H].
  - apply in_map_iff in H. destruct H as (c0 & <- & H). pose proof (wf_fresh_c _ W _ H). pose proof (x_fresh _ _ _ E). lia.
  - apply (x_nc _ _ _ E _ H).
Qed.
Lemma newgood_mono s s' : ms_cells (snd s') = ms_cells (snd s) -> rf_new_elems (fst s') = rf_new_elems (fst s) -> newgood s -> newgood s'.
Proof. intros A B G k H K. rewrite A in H. rewrite B in K. auto. Qed.
Lemma add_node_cells x st pos b1 b2 s p s' : add_node x st pos b1 b2 s = Ok (p, s') -> ms_cells (snd s') = ms_cells (snd s) /\ rf_new_elems (fst s') = rf_new_elems (fst s).
Proof.
  destruct s as [r m], s' as [r' m']. intros H. destruct (add_node_inv _ _ _ _ _ _ _ _ _ _ H) as (_ & n1 & n2 & _ & _ & D). cbv zeta in D.
  destruct D as [(-> & -> & _)|(-> & -> & D & ->)]; auto.
Qed.
Lemma child_nodes_cells c r pos vs : forall s y, child_nodes a c r pos vs s = Ok y -> ms_cells (snd (snd y)) = ms_cells (snd s) /\ rf_new_elems (fst (snd y)) = rf_new_elems (fst s).
Proof.
  induction vs as [|[k|j] vs IH]; intros s y H; cbn [child_nodes] in H.
  - injection H as <-. auto.
  - destruct (nth_error _ _); [|discriminate]. bind_inv H. injection H as <-. cbn. eauto.
  - destruct (nth_error (r_made r) j) as [nd|]; [|discriminate].
    destruct (nth_error _ _) as [b1|]; [|discriminate]. destruct (nth_error _ (snd _)) as [b2|]; [|discriminate].
    bind_inv H. bind_inv H. injection H as <-. cbn [fst snd]. destruct v as [p s1].
    destruct (add_node_cells _ _ _ _ _ _ _ _ E) as (A & B). destruct (IH _ _ E0) as (A' & B').
    cbn [fst snd] in *. rewrite A', B'. destruct (m_hang nd); auto.
Qed.
Lemma copy_nodes_cells sn conn : forall s y, copy_nodes sn conn s = Ok y -> ms_cells (snd (snd y)) = ms_cells (snd s) /\ rf_new_elems (fst (snd y)) = rf_new_elems (fst s).
Proof.
  induction conn as [|p t IH]; intros s y H; cbn [copy_nodes] in H.
  - injection H as <-; auto.
  - destruct (existsb _ _).
    + bind_inv H. bind_inv H. injection H as <-. cbn. destruct v as [q s1].
      destruct (add_node_cells _ _ _ _ _ _ _ _ E) as (A & B). destruct (IH _ _ E0) as (A' & B').
      cbn [fst snd] in *. rewrite A', B'. auto.
    + bind_inv H. injection H as <-. cbn. eauto.
Qed.
Lemma newgood_new s1 s2 (k : cell) : ext m0 (fst s1) (snd s1) -> newgood s1 ->
  ms_cells (snd s2) = ms_cells (snd s1) ++ [k] -> rf_new_elems (fst s2) = rf_new_elems (fst s1) ++ [ms_fresh (snd s1)] ->
  child k -> newgood s2.
Proof.
  intros E G A B C k' H K. rewrite A, in_app_iff in H. destruct H as [H|[<-|[]]]; auto.
  apply G; auto. rewrite B, in_app_iff in K. destruct K as [K|[K|[]]]; auto.
  pose proof (ext_cell_fresh _ _ _ E H). lia.
Qed.

(** The child recorded for a sub-element. *)
Definition made_child (s : state) (c : cell) (r : result) (d : bool) (j : nat) : Prop :=
  exists p k, In p (rf_new_elems (fst s)) /\ find_cell (snd s) p = Some k /\ piece_child a (share_of sE) c r d j k /\
    (forall sb, nth_error (r_subs r) j = Some sb -> forall v, In v (s_vert sb) -> uses sE c r d v).
Definition made_copy (s : state) (c : cell) (r : result) : Prop :=
  exists p k, In p (rf_new_elems (fst s)) /\ find_cell (snd s) p = Some k /\ copy_made a (share_of sE) c r k /\
    exists sn, side_nodes c r = Ok sn /\ forall q, In q (ce_conn c) -> In q sn -> exists q', answers sE q q false q'.
Definition served (s : state) (c : cell) (r : result) : Prop :=
  (through (r_mode r) = true -> forall (d : bool) j, In (Some j) (if d then r_pos r else r_neg r) -> made_child s c r d j) /\
  (touches r = true -> a_strong a = true -> made_copy s c r).
Lemma made_child_later s s' c r d j : later s s' -> ext m0 (fst s') (snd s') -> made_child s c r d j -> made_child s' c r d j.
Proof.
  intros (_ & _ & L3 & _ & L5 & _) E (p & k & A & B & C). exists p, k. split; auto. split; auto. apply L5; auto.
  intros H. apply in_map_iff in H. destruct H as ((q & t) & <- & H). destruct (x_old _ _ _ E _ _ H) as (c0 & H0 & H1 & _).
  pose proof (wf_fresh_c _ W _ H0). apply L3 in A. pose proof (x_nc _ _ _ E _ A). cbn [fst] in *. lia.
Qed.
Lemma made_copy_later s s' c r : later s s' -> ext m0 (fst s') (snd s') -> made_copy s c r -> made_copy s' c r.
Proof.
  intros (_ & _ & L3 & _ & L5 & _) E (p & k & A & B & C). exists p, k. split; auto. split; auto. apply L5; auto.
  intros H. apply in_map_iff in H. destruct H as ((q & t) & <- & H). destruct (x_old _ _ _ E _ _ H) as (c0 & H0 & H1 & _).
  pose proof (wf_fresh_c _ W _ H0). apply L3 in A. pose proof (x_nc _ _ _ E _ A). cbn [fst] in *. lia.
Qed.
Lemma served_later s s' c r : later s s' -> ext m0 (fst s') (snd s') -> served s c r -> served s' c r.
Proof. intros L E (A & B). split; intros; [eapply made_child_later; eauto|eapply made_copy_later; eauto]. Qed.

Lemma subs_children c r r0 (d : bool) l : In c (ms_cells m0) -> isect c r0 -> same_result r r0 -> through (r_mode r0) = true ->
  (forall j, In (Some j) l -> In (Some j) (if d then r_pos r else r_neg r)) ->
  forall s s', inrun (a_strong a) m0 s -> process_subs a c r d l s = Ok s' -> later s' sE -> newgood s ->
  newgood s' /\ (forall j, In (Some j) l -> made_child s' c r0 d j).
Proof.
  intros HC IS SR TH. induction l as [|[j|] l IH]; intros HL s s' I H L G.
  - cbn in H. injection H as <-. split; auto. intros j [].
  - destruct (subs_cons _ _ _ _ _ _ _ _ H) as (sb & conn & s1 & E & C & P & ST).
    pose proof (steps_child _ _ _ _ _ _ _ C) as ST1. cbn [snd] in ST1.
    pose proof (ext_child_nodes m0 _ _ _ _ _ _ _ C (ir_ext _ _ _ I)) as X1. cbn [fst snd] in X1.
    pose proof (inrun_steps _ _ _ _ I ST1 X1) as I1.
    set (s2 := after_child a c sb d conn s1) in *.
    assert (X2 : ext m0 (fst s2) (snd s2)).
    { apply (ext_process_subs m0 a c r d [Some j] s s2); [|apply I]. cbn [process_subs]. rewrite E, C. reflexivity. }
    pose proof (inrun_steps _ _ _ _ I1 ST X2) as I2.
    pose proof (steps_subs _ _ _ _ _ _ _ P) as ST3.
    assert (L2 : later s2 sE) by (eapply later_trans; [eapply later_steps; [eauto|apply I2]|auto]).
    assert (L1 : later s1 sE) by (eapply later_trans; [eapply later_steps; [eauto|apply I1]|auto]).
    destruct (child_conn _ _ _ _ _ _ _ _ _ (ir_sane _ _ _ I) C L1) as (CC & U).
    set (k := mkCell (ms_fresh (snd s1)) (child_type sb) conn (max_elem_id (snd s1)) (child_sub a c (child_type sb) d)).
    assert (PC : piece_child a (share_of sE) c r0 d j k).
    { apply (piece_child_same a (share_of sE) c r r0 d j k SR). split; [apply HL; left; auto|]. exists sb. cbn. split; auto. }
    destruct (child_nodes_cells _ _ _ _ _ _ C) as (K1 & K2). cbn [snd fst] in K1, K2.
    assert (A2 : ms_cells (snd s2) = ms_cells (snd s1) ++ [k]).
    { unfold s2, after_child. cbn. destruct (_ <=? _)%Z; auto. }
    assert (B2 : rf_new_elems (fst s2) = rf_new_elems (fst s1) ++ [ms_fresh (snd s1)]).
    { unfold s2, after_child. cbn. destruct d; auto. }
    assert (US : forall sb, nth_error (r_subs r0) j = Some sb -> forall v, In v (s_vert sb) -> uses sE c r0 d v).
    { intros sb' Q v Hv. apply (uses_same sE c r r0 d v SR). apply U.
      destruct SR as (_ & _ & _ & _ & _ & SB & _). rewrite <- SB, E in Q. injection Q as ->. auto. }
    assert (G2 : newgood s2).
    { apply (newgood_new s1 s2 k); auto.
      - eapply newgood_mono; eauto.
      - exists c, r0. split; auto. split; auto. left. split; auto. exists d, j. split; auto. }
    destruct (IH (fun j' Hj => HL j' (or_intror Hj)) _ _ I2 P L G2) as (G3 & M3). split; auto.
    intros j' [Q|Hj]; [|auto]. injection Q as <-.
    assert (X3 : ext m0 (fst s') (snd s')) by (eapply ext_process_subs; eauto).
    apply (made_child_later s2 s'); auto; [eapply later_steps; [eauto|apply I2]|].
    exists (ms_fresh (snd s1)), k. split; [rewrite B2; apply in_app_iff; right; left; auto|]. split; [|split; auto].
    unfold find_cell. rewrite A2. apply (find_in ce_ptr); [|apply in_app_iff; right; left; auto|reflexivity].
    rewrite <- A2. eapply ext_cells_nodup; eauto.
  - cbn [process_subs] in H. destruct d; [|discriminate].
    destruct (IH (fun j' Hj => HL j' (or_intror Hj)) _ _ I H L G) as (G3 & M3). split; auto. intros j' [Q|Hj]; [discriminate|auto].
Qed.

Lemma copy_conn sn conn : forall s y, sane true s -> copy_nodes sn conn s = Ok y -> later (snd y) sE ->
  fst y = map (fun p => if existsb (Nat.eqb p) sn then share_of sE p p false else p) conn /\
  forall p, In p conn -> In p sn -> exists q, answers sE p p false q.
Proof.
  induction conn as [|p t IH]; intros s y S H L; cbn [copy_nodes] in H.
  - injection H as <-. split; auto. intros p [].
  - destruct (existsb (Nat.eqb p) sn) eqn:E.
    + bind_inv H. bind_inv H. injection H as <-. destruct v as [q s1], v0 as [conn s2]. cbn [fst snd] in *.
      destruct (add_node_answers _ _ _ _ _ _ _ _ (proj2 S) E0) as (A1 & _).
      assert (S1 : sane true s1) by (eapply sane_steps; [apply ss_one; eapply st_node; eauto|auto]).
      pose proof (later_steps _ _ _ (steps_copy _ _ _ _ E1) (proj2 S1)) as L2. cbn [snd] in L2.
      assert (A2 : answers sE p p false q) by (eapply answers_later; [eapply later_trans; eauto|exact A1]).
      destruct (IH _ _ S1 E1 L) as (B1 & B2). cbn [fst snd map] in *. rewrite E, (share_answers _ _ _ _ _ A2). split; [f_equal; auto|].
      intros z [<-|Hz] Z2; eauto.
    + bind_inv H. injection H as <-. destruct v as [conn s2]. cbn [fst snd map] in *. rewrite E.
      destruct (IH _ _ S E0 L) as (B1 & B2). cbn [fst snd] in *. split; [f_equal; auto|].
      intros z [<-|Hz] Z2; eauto. apply existsb_in in Z2. congruence.
Qed.

Lemma negative_children c r r0 s s' : In c (ms_cells m0) -> isect c r0 -> same_result r r0 -> touches r0 = true -> a_strong a = true ->
  inrun (a_strong a) m0 s -> process_negative a c r s = Ok s' -> later s' sE -> newgood s -> newgood s' /\ made_copy s' c r0.
Proof.
  intros HC IS SR TC SA I H L G. pose proof (steps_negative _ _ _ _ _ H) as ST0. assert (H0 := H).
  unfold process_negative in H. bind_inv H. bind_inv H. destruct v0 as [conn s1]. cbn [fst snd add_elem] in H.
  injection H as <-.
  rewrite SA in I. pose proof (steps_copy _ _ _ _ E0) as ST. cbn [snd] in ST.
  pose proof (ext_copy_nodes m0 _ _ _ _ E0 (ir_ext _ _ _ I)) as X1. cbn [fst snd] in X1.
  pose proof (inrun_steps _ _ _ _ I ST X1) as I1.
  set (sd := sub16 (ce_sub c + a_neg a)) in *.
  assert (L1 : later s1 sE).
  { eapply later_trans; [|exact L]. destruct s1 as [r1 m1]. cbn [fst snd].
    apply (later_steps true); [|apply I1].
    econstructor; [apply (st_neg _ sd)|]. apply ss_one. apply (st_elem true (ce_type c) conn sd (with_neg sd r1) m1). }
  destruct (copy_conn _ _ _ _ (ir_sane _ _ _ I) E0 L1) as (CC & U). cbn [fst] in CC.
  destruct (copy_nodes_cells _ _ _ _ E0) as (K1 & K2). cbn [snd fst] in K1, K2.
  rewrite (side_nodes_same _ _ _ SR) in E.
  assert (CM : copy_made a (share_of sE) c r0 (mkCell (ms_fresh (snd s1)) (ce_type c) conn (max_elem_id (snd s1)) sd)).
  { exists v. split; [auto|]. cbn. split; auto. }
  split.
  2: { exists (ms_fresh (snd s1)), (mkCell (ms_fresh (snd s1)) (ce_type c) conn (max_elem_id (snd s1)) sd).
    split; [cbn; apply in_app_iff; right; left; auto|]. split; [|split; [exact CM|exists v; split; auto]].
    assert (X2 : ext m0 (fst (with_elem (ms_fresh (snd s1)) (with_neg sd (fst s1)), snd (add_elem (snd s1) (ce_type c) conn sd)))
                   (snd (with_elem (ms_fresh (snd s1)) (with_neg sd (fst s1)), snd (add_elem (snd s1) (ce_type c) conn sd)))).
    { eapply ext_process_negative; [|apply (ir_ext _ _ _ I)]. exact H0. }
    cbn [snd fst] in *. unfold find_cell. cbn [ms_cells add_elem snd]. apply (find_in ce_ptr); [|apply in_app_iff; right; left; auto|reflexivity].
    eapply ext_cells_nodup in X2; eauto. }
  match goal with |- newgood ?x => apply (newgood_new s1 x (mkCell (ms_fresh (snd s1)) (ce_type c) conn (max_elem_id (snd s1)) sd)) end.
  - apply X1.
  - eapply newgood_mono; eauto.
  - reflexivity.
  - reflexivity.
  - exists c, r0. split; auto. split; auto. right. split; auto. split; auto. split.
    + exists v. split; [auto|]. cbn. split; auto.
    + exists v. split; auto.
Qed.

Lemma newgood_retire c off s : In c (ms_cells m0) -> ext m0 (fst s) (snd s) -> newgood s -> newgood (retire c off s).
Proof.
  intros HC E G k H K. cbn in H, K. apply in_map_iff in H. destruct H as (k0 & <- & H).
  change (In (ce_ptr (sub_to (ce_ptr c) (sub16 (ce_sub c + off)) k0)) (rf_new_elems (fst s))) in K.
  rewrite sub_to_ptr in K.
  destruct (Nat.eqb_spec (ce_ptr k0) (ce_ptr c)) as [Q|Q]; auto.
  pose proof (x_nc _ _ _ E _ K). pose proof (wf_fresh_c _ W _ HC). lia.
Qed.

Lemma cell_children p l s s' : inrun (a_strong a) m0 (fst s) -> live m0 (fst (fst s)) (p :: l) ->
  process_cell a p s = Ok s' -> later (fst s') sE -> newgood (fst s) ->
  newgood (fst s') /\
  exists c r0, In c (ms_cells m0) /\ ce_ptr c = p /\ isect c r0 /\
    served (fst s') c r0.
Proof.
  intros I L H LA G. destruct (process_cell_inrun _ _ _ _ _ _ W I L H) as (I' & _).
  destruct (proj2 L p (or_introl eq_refl)) as (L1 & L2).
  destruct (inrun_cell _ _ _ _ W I L1 L2) as (c & C1 & C2 & C3 & C4 & C5).
  unfold process_cell in H. rewrite C3 in H. bind_inv H. rename v into r.
  rewrite C4 in E. destruct (init_ids _ _ _ _ (max_elem_id m0) (max_node_id m0) _ E) as (r0 & R0 & SR).
  pose proof SR as (SM & _ & SN & SP & SNG & _).
  assert (TT : touches r0 = touches r) by (unfold touches; rewrite SM, SNG; auto).
  destruct (through (r_mode r)) eqn:TH.
  - bind_inv H. bind_inv H. injection H as <-. cbn [fst snd] in *.
    pose proof (steps_subs _ _ _ _ _ _ _ E0) as T1. pose proof (steps_subs _ _ _ _ _ _ _ E1) as T2.
    pose proof (ext_process_subs m0 _ _ _ _ _ _ _ E0 (ir_ext _ _ _ I)) as X1.
    pose proof (inrun_steps _ _ _ _ I T1 X1) as I1.
    pose proof (ext_process_subs m0 _ _ _ _ _ _ _ E1 (ir_ext _ _ _ I1)) as X2.
    pose proof (inrun_steps _ _ _ _ I1 T2 X2) as I2.
    pose proof (steps_retire (a_strong a) c (a_in a) v0) as T3.
    assert (LB : later v0 sE) by (eapply later_trans; [eapply later_steps; [exact T3|apply I2]|auto]).
    assert (LC : later v sE) by (eapply later_trans; [eapply later_steps; [exact T2|apply I1]|auto]).
    assert (TH0 : through (r_mode r0) = true) by (rewrite <- SM; auto).
    destruct (subs_children c r r0 true (r_pos r) C1 R0 SR TH0 (fun j Hj => Hj) _ _ I E0 LC G) as (G1 & M1).
    destruct (subs_children c r r0 false (r_neg r) C1 R0 SR TH0 (fun j Hj => Hj) _ _ I1 E1 LB G1) as (G2 & M2).
    split; [apply newgood_retire; auto|]. exists c, r0. split; auto. split; auto. split; auto.
    assert (NT : touches r0 = false) by (clear - TH0; unfold touches; destruct (r_mode r0); auto; discriminate TH0).
    split; [|rewrite NT; discriminate].
    intros _ d j Hj. apply (made_child_later v0); [eapply later_steps; [exact T3|apply I2]|apply I'|].
    destruct d.
    + apply (made_child_later v); [eapply later_steps; [exact T2|apply I1]|auto|]. apply M1. rewrite SP; auto.
    + apply M2. rewrite SNG; auto.
  - assert (NT : through (r_mode r0) = false) by (rewrite <- SM; auto).
    assert (SV : forall s, (touches r0 = true -> a_strong a = true -> made_copy s c r0) -> served s c r0).
    { intros s0 X. split; auto. rewrite NT. discriminate. }
    destruct (touches r) eqn:TC; rewrite ?TC in *.
    + destruct (a_strong a) eqn:SA.
      * bind_inv H. injection H as <-. cbn [fst snd] in *.
        pose proof (ext_process_negative m0 _ _ _ _ _ E0 (ir_ext _ _ _ I)) as X1.
        pose proof (inrun_steps _ _ _ _ I (steps_negative _ _ _ _ _ E0) X1) as I1.
        pose proof (steps_retire true c (a_in a) v) as T3.
        assert (LB : later v sE) by (eapply later_trans; [eapply later_steps; [exact T3|apply I1]|auto]).
        assert (I0 : inrun (a_strong a) m0 (fst s)) by (rewrite SA; auto).
        destruct (negative_children c r r0 _ _ C1 R0 SR TT SA I0 E0 LB G) as (G1 & M1).
        split; [apply newgood_retire; auto|]. exists c, r0. split; auto. split; auto. split; auto. apply SV. intros _ _.
        apply (made_copy_later v); auto; [eapply later_steps; [exact T3|apply I1]|apply I'].
      * injection H as <-. cbn [fst]. split; [apply newgood_retire; auto; apply I|]. exists c, r0. split; auto. split; auto. split; auto.
        apply SV. discriminate.
    + assert (FF : forall s, served s c r0) by (intros s0; apply SV; rewrite TT; discriminate).
      destruct (r_onneg r); injection H as <-; (split; [|exists c, r0; split; auto]); auto. cbn [fst]. apply newgood_retire; auto. apply I.
Qed.

Lemma cells_children l : forall s s', inrun (a_strong a) m0 (fst s) -> live m0 (fst (fst s)) l ->
  process_cells a l s = Ok s' -> later (fst s') sE -> newgood (fst s) ->
  newgood (fst s') /\
  forall p, In p l -> exists c r0, In c (ms_cells m0) /\ ce_ptr c = p /\ isect c r0 /\
    served (fst s') c r0.
Proof.
  induction l as [|p l IH]; intros s s' I L H LA G; cbn [process_cells] in H.
  - injection H as <-. split; auto. intros p [].
  - bind_inv H. destruct (process_cell_inrun _ _ _ _ _ _ W I L E) as (I1 & L1).
    pose proof (steps_cells _ _ _ _ H) as T. 
    assert (LB : later (fst v) (fst s')) by (eapply later_steps; [exact T|apply I1]).
    destruct (cell_children _ _ _ _ I L E (later_trans _ _ _ LB LA) G) as (G1 & c & r0 & A1 & A2 & A3 & A4).
    destruct (IH _ _ I1 L1 H LA G1) as (G2 & P). split; auto.
    intros q [<-|Hq]; auto. exists c, r0. split; auto. split; auto. split; auto.
    apply (served_later (fst v)); auto. destruct (ext_process_cells m0 a l v s' W H (ir_ext _ _ _ I1) L1) as (X & _). auto.
Qed.
End Children.
