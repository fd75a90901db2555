(** Properties C50-C52 and C73-C75: refinement of the mesh along the level set. *)
From Coq Require Import List Arith NArith ZArith Lia Bool Reals Lra.
From Verif Require Import Base BaseLemmas RBool Filt_Model Filt_Proofs2 Isec_Model Isec_Spec Isec_Proofs Isec_Proofs2 Isec_Proofs3 Isec_Proofs4 Isec_Proofs5 Isec_Props Isec_Props2 Refi_Model Refi_Spec Refi_Proofs Refi_Proofs2 Refi_Proofs3 Refi_Proofs4 Refi_Proofs5 Refi_Proofs6 Refi_Proofs7.
Import ListNotations.
Open Scope nat_scope.

(** ** C50: clear_mesh undoes process_mesh *)

(** After any history of process_mesh and clear_mesh calls on a fresh object, clear_mesh succeeds and
    leaves the original mesh: node and element objects, positions, connectivity, types, subdomain
    ids, boundary sides.  Ids too, if prepare_for_use numbers by the mesh alone and the original
    mesh was numbered by it. *)
Theorem C50_restored prep m0 l s : renumbers prep -> wf m0 -> do_calls prep l (refi0, m0) = Ok s ->
  exists m' b, clear_mesh prep s = Ok ((refi0, m'), b) /\ same_mesh m' m0 /\
    (canonical prep -> same_numbers (prep m0) m0 -> same_numbers m' m0).
Proof.
  intros RN W D.
  assert (R : rest prep m0 (refi0, m0)). { split; auto. split; [apply same_refl|]. split; auto. intros _ _. split; auto. }
  destruct (clear_rest prep m0 s RN (calls_inv _ _ _ _ _ RN (or_introl R) D)) as (m' & b & E & (_ & A & _ & B)).
  exists m', b. auto.
Qed.
(** process_mesh itself ends without error whenever the intersection of every element does. *)
Theorem C50_process_total prep a m : wf m ->
  (forall c, In c (ms_cells m) -> exists r, init (a_phi a) (cell_elem m c) (max_elem_id m) (max_node_id m) = Ok r) ->
  exists s' b, process_mesh prep a (refi0, m) = Ok (s', b).
Proof.
  intros W J. unfold process_mesh, assert_. cbn [fst snd negb rf_init refi0].
  destruct (select_total a m (ms_cells m) J) as (l & S). rewrite S. cbn [bind].
  destruct (process_cells_total a m l ((refi0, m), false) W J (inrun_start _ _ W) (select_live _ _ _ W S)) as (y & E).
  replace (process_cells a l _) with (Ok y) by (symmetry; exact E). cbn [bind]. eauto.
Qed.
(** In particular for four-node elements and level sets whose magnitude is nowhere exactly the
    tolerance: processing and clearing succeed and give back the mesh. *)
Theorem C50_round_trip_quad4 prep a m : renumbers prep -> wf m ->
  (forall c, In c (ms_cells m) -> ce_type c = TQuad4) ->
  (forall n, In n (ms_nodes m) -> Rabs (a_phi a (nd_pt n)) <> tol) ->
  exists s b m' b', process_mesh prep a (refi0, m) = Ok (s, b) /\ clear_mesh prep s = Ok ((refi0, m'), b') /\ same_mesh m' m.
Proof.
  intros RN W Q T. destruct (C50_process_total prep a m W) as (s & b & P).
  - intros c Hc. apply C70_mode_found_partial; [cbn; rewrite (Q c Hc); auto|]. intros i Hi. cbn.
    destruct (wf_conn _ W _ Hc) as (LN & CN). rewrite (Q c Hc) in LN. cbn in LN.
    destruct (nth_error (ce_conn c) i) as [p|] eqn:E; [|apply nth_error_None in E; lia].
    apply nth_error_In in E. apply CN in E. destruct (find_node_in _ _ E) as (n & F). unfold npt. rewrite F.
    apply T. apply find_some in F. apply F.
  - destruct (C50_restored prep m [Process a] s RN W) as (m' & b' & C & S & _).
    + cbn [do_calls do_call]. rewrite P. reflexivity.
    + exists s, b, m', b'. auto.
Qed.

(** ** C51: nodes on cut edges *)

(** Over any sequence of requests for nodes on edges of a mesh: the nodes returned are new, two
    requests get the same node exactly when they name the same edge (in either direction) and, for a
    strong discontinuity, the same side; if requests for the same node ask for the same point, the
    node is there. *)
Lemma serve_ext st l : forall m0 s y, ext m0 (fst s) (snd s) -> serve st l s = Ok y -> ext m0 (fst (snd y)) (snd (snd y)).
Proof.
  induction l as [|q l IH]; intros m0 s y E H; cbn [serve] in H.
  - injection H as <-. auto.
  - bind_inv H. bind_inv H. injection H as <-. destruct v as [p s1]. cbn [fst snd] in *.
    eapply IH; [|exact E1]. eapply ext_add_node; eauto.
Qed.
Theorem C51_requests_partial st l m0 ps s : wf m0 -> serve st l (refi0, m0) = Ok (ps, s) ->
  length ps = length l /\
  (forall i q p, nth_error l i = Some q -> nth_error ps i = Some p ->
     In p (map nd_ptr (ms_nodes (snd s))) /\ ~ In p (map nd_ptr (ms_nodes m0)) /\
     ((forall q', In q' l -> same_edge q' q -> (st = true -> q_pos q' = q_pos q) -> q_pt q' = q_pt q) -> npt (snd s) p = q_pt q)) /\
  (forall i j q q' p p', nth_error l i = Some q -> nth_error ps i = Some p -> nth_error l j = Some q' -> nth_error ps j = Some p' ->
     (p = p' <-> same_edge q q' /\ (st = true -> q_pos q = q_pos q'))).
Proof.
  intros W H. pose proof (mapok_start st m0 W) as M0.
  destruct (serve_ok st l (refi0, m0) ps s M0 H) as (LN & M & L & P).
  assert (X : ext m0 (fst s) (snd s)) by (apply (serve_ext st l m0 (refi0, m0) (ps, s)); auto; apply ext_start; reflexivity).
  assert (IFF : forall i j q q' p p', nth_error l i = Some q -> nth_error ps i = Some p -> nth_error l j = Some q' -> nth_error ps j = Some p' ->
     (p = p' <-> same_edge q q' /\ (st = true -> q_pos q = q_pos q'))).
  { intros i j q q' p p' A1 A2 B1 B2. destruct (P _ _ _ A1 A2) as (Q1 & _). destruct (P _ _ _ B1 B2) as (Q2 & _). split.
    - intros ->. destruct (answers_inj _ _ _ _ _ _ _ _ _ M Q1 Q2) as (S & D). split; auto.
    - intros (S & D). destruct S as [(S1 & S2)|(S1 & S2)].
      + rewrite <- S1, <- S2 in Q2. eapply answers_fun; eauto.
      + rewrite <- S1, <- S2 in Q2. apply answers_sym in Q2. eapply answers_fun; eauto. }
  split; auto. split; auto. intros i q p A1 A2. destruct (P _ _ _ A1 A2) as (Q1 & Q2).
  pose proof Q1 as (n1 & n2 & _ & _ & G). pose proof (k_new _ _ _ M _ _ _ G) as NW. split; [eapply k_nn; eauto|]. split.
  - intros K. apply in_map_iff in K. destruct K as (n & <- & Hn). pose proof (wf_fresh_n _ W _ Hn). pose proof (x_nn _ _ _ X _ NW). lia.
  - intros C. destruct Q2 as [(k & d & Z)|(j & q' & J1 & J2 & J3 & J4)]; [cbn in Z; destruct d; discriminate|].
    rewrite J4. destruct (IFF j i q' q p p J2 J3 A1 A2) as (I1 & _). destruct (I1 eq_refl) as (I2 & I3).
    apply C; auto. eapply nth_error_In; eauto.
Qed.
Theorem C51_requests_total st l m0 : wf m0 ->
  (forall q, In q l -> In (q_a q) (map nd_ptr (ms_nodes m0)) /\ In (q_b q) (map nd_ptr (ms_nodes m0))) ->
  exists ps s, serve st l (refi0, m0) = Ok (ps, s).
Proof.
  intros W H. destruct (serve_total st l (refi0, m0)) as ((ps & s) & E); eauto. split; [reflexivity|apply mapok_start; auto].
Qed.

(** The nodes used on the edges by the elements made by process_mesh: one function of the edge and the
    side serves all elements. *)
Lemma answers_new a m sE x y d p : wf m -> good a m sE -> answers sE x y d p ->
  In p (map nd_ptr (ms_nodes (snd sE))) /\ ~ In p (map nd_ptr (ms_nodes m)).
Proof.
  intros W (I & _ & _) (n1 & n2 & F1 & F2 & G). pose proof (ir_sane _ _ _ I) as (_ & M).
  pose proof (k_new _ _ _ M _ _ _ G) as NW. split; [eapply k_nn; eauto|].
  intros K. apply in_map_iff in K. destruct K as (n & <- & Hn). pose proof (wf_fresh_n _ W _ Hn).
  pose proof (x_nn _ _ _ (ir_ext _ _ _ I) _ NW). lia.
Qed.
Lemma same_mesh_npt a b p : same_mesh a b -> npt a p = npt b p.
Proof.
  intros (H & _). unfold npt, find_node. revert H. generalize (ms_nodes b). induction (ms_nodes a) as [|n l IH]; intros [|n' l'] H; try discriminate; auto.
  cbn [map] in H. injection H as H1 H2 H3. cbn [find]. rewrite H1. destruct (_ =? _); auto.
Qed.
Lemma same_mesh_nodes a b : same_mesh a b -> map nd_ptr (ms_nodes a) = map nd_ptr (ms_nodes b).
Proof.
  intros (H & _). apply (f_equal (map fst)) in H. rewrite !map_map in H. exact H.
Qed.
Lemma same_mesh_cell a b k : same_mesh a b -> In k (ms_cells a) -> exists k', In k' (ms_cells b) /\ ce_ptr k' = ce_ptr k /\
  ce_type k' = ce_type k /\ ce_conn k' = ce_conn k /\ ce_sub k' = ce_sub k.
Proof.
  intros (_ & H & _) K. apply (in_map (fun c => (ce_ptr c, ce_type c, ce_conn c, ce_sub c))) in K. rewrite H in K.
  apply in_map_iff in K. destruct K as (k' & E & K). exists k'. injection E as A B C D. auto.
Qed.
Lemma same_mesh_cell' a b p k : same_mesh a b -> find_cell b p = Some k -> exists k', find_cell a p = Some k' /\ ce_ptr k' = ce_ptr k /\
  ce_type k' = ce_type k /\ ce_conn k' = ce_conn k /\ ce_sub k' = ce_sub k.
Proof.
  intros (_ & H & _). unfold find_cell. revert H. generalize (ms_cells b). induction (ms_cells a) as [|n l IH]; intros [|n' l'] H; try discriminate.
  cbn [map] in H. injection H as H1 H2 H3 H4 H5. cbn [find]. rewrite H1. destruct (_ =? _); [|apply IH; auto].
  intros E. injection E as <-. exists n. repeat split; auto.
Qed.
Lemma share_new a m sE x y d : wf m -> good a m sE -> In (share_of sE x y d) (map nd_ptr (ms_nodes (snd sE))) ->
  ~ In (share_of sE x y d) (map nd_ptr (ms_nodes m)) -> share_of sE x y d <> 0 -> answers sE x y d (share_of sE x y d).
Proof.
  intros W G A B Z. unfold share_of in *. destruct (find_node (snd sE) x) as [n1|] eqn:F1; [|congruence].
  destruct (find_node (snd sE) y) as [n2|] eqn:F2; [|congruence].
  destruct (get (rf_map (fst sE)) (mkkey n1 n2) d) as [p|] eqn:E; [|congruence]. exists n1, n2. auto.
Qed.

(** The nodes the code doubles are the nodes where the level set touches the element. *)
Lemma side_nodes_touched a m c r sn p : wf m -> In c (ms_cells m) -> init (a_phi a) (cell_elem m c) (max_elem_id m) (max_node_id m) = Ok r ->
  side_nodes c r = Ok sn -> (In p sn <-> touched c r p).
Proof.
  intros W Hc R SN. destruct (wf_conn _ W _ Hc) as (LN & _).
  pose proof (init_ok_quad _ _ _ _ _ R) as Q.
  assert (SZ : (ce_type c = TQuad4 /\ length (ce_conn c) = 4) \/ (ce_type c = TQuad9 /\ length (ce_conn c) = 9)).
  { unfold cell_elem in Q. cbn [e_type] in Q. destruct (ce_type c); rewrite LN; auto; destruct Q as [Q|Q]; discriminate Q. }
  assert (NE : forall i, i < length (ce_conn c) -> nth_error (ce_conn c) i = Some (nth i (ce_conn c) 0)) by (intros; apply nth_error_nth'; auto).
  unfold side_nodes in SN. unfold touched, touched_place. destruct (r_mode r) eqn:M; try discriminate SN; injection SN as <-.
  - destruct (C46_touched_node _ _ _ _ _ R M) as (RN & _). split.
    + intros [<-|[]]. exists (r_node r). split; [left; auto|apply NE; lia].
    + intros (i & [(_ & ->)|(K & _)] & E); [|discriminate]. rewrite NE in E by lia. injection E as <-. cbn. auto.
  - destruct (C46_touched_side _ _ _ _ _ R M) as (RE & _).
    pose proof (Nat.mod_upper_bound (r_edge r + 1) 4 ltac:(lia)) as RE1. set (j := (r_edge r + 1) mod 4) in *. split.
    + intros [<-|[<-|K]]; [exists (r_edge r)|exists j|exists (r_edge r + 4)];
        try (split; [right; split; auto|apply (NE _); lia]).
      destruct SZ as [(T & Z)|(T & Z)]; rewrite T in K; [destruct K|]. destruct K as [<-|[]]. split; [right; auto|apply NE; lia].
    + intros (i & [(K & _)|(_ & [->|[->|(T & ->)]])] & E); [discriminate| | |].
      * rewrite NE in E by lia. injection E as <-. left. auto.
      * rewrite NE in E by lia. injection E as <-. right. left. auto.
      * destruct SZ as [(Z & _)|(_ & Z)]; [congruence|]. rewrite NE in E by lia. injection E as <-. rewrite T. right. right. left. auto.
Qed.
Lemma copy_made_child a m sh c r k : wf m -> In c (ms_cells m) -> init (a_phi a) (cell_elem m c) (max_elem_id m) (max_node_id m) = Ok r ->
  copy_made a sh c r k -> copy_child a sh c r k.
Proof.
  intros W Hc R (sn & SN & CN & T & SU). split; auto. split; auto. rewrite CN.
  assert (Q := fun p => side_nodes_touched a m c r sn p W Hc R SN). clear CN.
  induction (ce_conn c) as [|p l IH]; constructor; auto.
  assert (X : existsb (Nat.eqb p) sn = true <-> In p sn).
  { rewrite existsb_exists. split; [intros (x & X1 & X2); apply Nat.eqb_eq in X2; subst; auto|intros X; exists p; split; auto; apply Nat.eqb_refl]. }
  rewrite <- Q, <- X. destruct (existsb _ _); split; auto; [intros K; destruct K; auto|discriminate].
Qed.
Lemma copy_child_eq a sh c r k k' : ce_type k' = ce_type k -> ce_conn k' = ce_conn k -> ce_sub k' = ce_sub k -> copy_child a sh c r k -> copy_child a sh c r k'.
Proof. intros A B C (D & E & F). unfold copy_child. rewrite A, B, C. auto. Qed.

Theorem C51_children prep a m s' b : renumbers prep -> wf m -> process_mesh prep a (refi0, m) = Ok (s', b) ->
  let new p := In p (map nd_ptr (ms_nodes (snd s'))) /\ ~ In p (map nd_ptr (ms_nodes m)) in
  exists share : nat -> nat -> bool -> nat,
  (* one node per edge, whatever the direction; one for both sides if the discontinuity is weak *)
  (forall x y d, share x y d = share y x d) /\
  (a_strong a = false -> forall x y, share x y true = share x y false) /\
  (* different nodes for different edges and, if the discontinuity is strong, for different sides *)
  (forall x y d x' y' d', new (share x y d) -> 0 < share x y d -> share x y d = share x' y' d' ->
     ((x = x' /\ y = y') \/ (x = y' /\ y = x')) /\ (a_strong a = true -> d = d')) /\
  (* on the edge *)
  (forall x y d, new (share x y d) -> 0 < share x y d -> on_seg (npt (snd s') x) (npt (snd s') y) (npt (snd s') (share x y d))) /\
  (* every element added is a piece of a cut element or a copy of an element touching the level set *)
  (forall k, In k (ms_cells (snd s')) -> ~ In (ce_ptr k) (map ce_ptr (ms_cells m)) ->
     exists c r, In c (ms_cells m) /\ init (a_phi a) (cell_elem m c) (max_elem_id m) (max_node_id m) = Ok r /\
       ((through (r_mode r) = true /\ exists d j, piece_child a share c r d j k) \/
        (a_strong a = true /\ touches r = true /\ copy_child a share c r k))) /\
  (* and every piece of every cut element is there, with the shared nodes on the cut edges *)
  (forall c r, In c (ms_cells m) -> init (a_phi a) (cell_elem m c) (max_elem_id m) (max_node_id m) = Ok r ->
     through (r_mode r) = true -> forall (d : bool) j, In (Some j) (if d then r_pos r else r_neg r) ->
     (exists k, In k (ms_cells (snd s')) /\ ~ In (ce_ptr k) (map ce_ptr (ms_cells m)) /\ piece_child a share c r d j k) /\
     (forall sb i nd, nth_error (r_subs r) j = Some sb -> In (Made i) (s_vert sb) -> nth_error (r_made r) i = Some nd ->
        new (share (nth (fst (m_bound nd)) (ce_conn c) 0) (nth (snd (m_bound nd)) (ce_conn c) 0) d))) /\
  (* with a strong discontinuity every element touching the level set from the negative side has a copy, with new
     nodes where it touches *)
  (a_strong a = true -> forall c r, In c (ms_cells m) -> init (a_phi a) (cell_elem m c) (max_elem_id m) (max_node_id m) = Ok r ->
     touches r = true ->
     (exists k, In k (ms_cells (snd s')) /\ ~ In (ce_ptr k) (map ce_ptr (ms_cells m)) /\ copy_child a share c r k) /\
     (forall p, touched c r p -> new (share p p false) /\ npt (snd s') (share p p false) = npt (snd s') p)).
Proof.
  intros RN W H new. destruct (process_all _ _ _ _ _ RN W H) as (sE & G & NG & MC & MV & J & SM & F & _ & CP).
  pose proof G as (I & PL & HG). pose proof (ir_sane _ _ _ I) as (_ & M). pose proof (ir_ext _ _ _ I) as X.
  assert (NEW : forall p, new p <-> In p (map nd_ptr (ms_nodes (snd sE))) /\ ~ In p (map nd_ptr (ms_nodes m))).
  { intros p. unfold new. rewrite (same_mesh_nodes _ _ SM). tauto. }
  exists (share_of sE). split; [apply share_sym|]. split; [|split; [|split; [|split; [|split]]]].
  - intros ST x y. unfold share_of. destruct (find_node (snd sE) x), (find_node (snd sE) y); auto. rewrite (k_weak _ _ _ M ST). auto.
  - intros x y d x' y' d' N Z E. apply NEW in N. destruct N as (N1 & N2).
    pose proof (share_new _ _ _ _ _ _ W G N1 N2 ltac:(lia)) as A. rewrite E in N1, N2.
    pose proof (share_new _ _ _ _ _ _ W G N1 N2 ltac:(lia)) as B. rewrite <- E in B.
    apply (answers_inj _ _ _ _ _ _ _ _ _ M A B).
  - intros x y d N Z. apply NEW in N. destruct N as (N1 & N2). rewrite !(same_mesh_npt _ _ _ SM).
    eapply placed_answers; eauto. eapply share_new; eauto. lia.
  - intros k K1 K2. destruct (same_mesh_cell _ _ _ SM K1) as (k' & Q1 & Q2 & Q3 & Q4 & Q5).
    assert (NE : In (ce_ptr k') (rf_new_elems (fst sE))).
    { pose proof (in_map ce_ptr _ _ Q1) as Q. rewrite (ext_cell_ptrs _ _ _ X), in_app_iff in Q. destruct Q as [Q|Q]; auto. rewrite Q2 in Q. contradiction. }
    destruct (NG k' Q1 NE) as (c & r & C1 & C2 & [(C3 & d & j & C4 & _)|(C3 & C4 & C5 & _)]); exists c, r; split; auto; split; auto.
    + left. split; auto. exists d, j. unfold piece_child in *. rewrite <- Q4, <- Q3, <- Q5. auto.
    + right. split; auto. split; auto. apply (copy_child_eq _ _ _ _ k'); auto. apply (copy_made_child a m); auto.
  - intros c r Hc R TH d j Hj. destruct (MC c r Hc R TH d j Hj) as (p & k & P1 & P2 & P3 & P4). split.
    + destruct (same_mesh_cell' _ _ _ _ SM P2) as (k' & Q1 & Q2 & Q3 & Q4 & Q5). exists k'. split; [|split].
      * unfold find_cell in Q1. apply find_some in Q1. apply Q1.
      * apply find_some in P2. destruct P2 as (_ & P2). rewrite Q2, P2. intros K. apply in_map_iff in K.
        destruct K as (c0 & <- & K). pose proof (wf_fresh_c _ W _ K). pose proof (x_nc _ _ _ X _ P1). lia.
      * unfold piece_child in *. rewrite Q3, Q4, Q5. auto.
    + intros sb i nd SB V ND. pose proof (P4 sb SB _ V) as U. cbn [uses] in U.
      destruct U as (nd' & b1 & b2 & q & U1 & U2 & U3 & U4). rewrite ND in U1. injection U1 as <-.
      rewrite (nth_error_nth _ _ _ U2), (nth_error_nth _ _ _ U3), (share_answers _ _ _ _ _ U4).
      apply NEW. eapply answers_new; eauto.
  - intros SA c r Hc R TC. destruct (CP SA c r Hc R TC) as (p & k & P1 & P2 & P3 & sn & SN & P4). split.
    + destruct (same_mesh_cell' _ _ _ _ SM P2) as (k' & Q1 & Q2 & Q3 & Q4 & Q5). exists k'. split; [|split].
      * unfold find_cell in Q1. apply find_some in Q1. apply Q1.
      * apply find_some in P2. destruct P2 as (_ & P2). rewrite Q2, P2. intros K. apply in_map_iff in K.
        destruct K as (c0 & <- & K). pose proof (wf_fresh_c _ W _ K). pose proof (x_nc _ _ _ X _ P1). lia.
      * apply (copy_child_eq _ _ _ _ k); auto. apply (copy_made_child a m); auto.
    + intros q T. assert (IQ : In q (ce_conn c)) by (destruct T as (i & _ & T); eapply nth_error_In; eauto).
      apply (side_nodes_touched a m c r sn q W Hc R SN) in T. destruct (P4 q IQ T) as (q' & A).
      rewrite (share_answers _ _ _ _ _ A). split; [apply NEW; eapply answers_new; eauto|].
      rewrite !(same_mesh_npt _ _ _ SM). destruct (placed_answers _ _ _ _ _ _ M PL A) as (t & _ & E). rewrite E.
      unfold along. destruct (npt (snd sE) q) as [[x y] z]. cbn. f_equal; [f_equal|]; ring.
Qed.

(** ** C52: constraints *)

(** Everything constrain() adds, after any successful process_mesh: nothing already constrained is
    touched and no dof gets two rows; each row either fixes to zero a dof of a local element with the
    subdomain id of negative pieces, or is the row of a hanging node.  The latter reads
    (1-t) u1 + t u2, with t the position of the node between the bounding nodes, provided these are
    at different places and carry different dofs. *)
Theorem C52_rows prep a m s' b d rows rows' : renumbers prep -> wf m ->
  process_mesh prep a (refi0, m) = Ok (s', b) -> constrain d s' rows = Ok rows' ->
  exists new, rows' = rows ++ new /\ NoDup (map fst new) /\ (forall i, In i (map fst new) -> ~ In i (map fst rows)) /\
  forall i w, In (i, w) new ->
   (w = [] /\ exists c, In c (ms_cells (snd s')) /\ dm_local d c = true /\ In (ce_sub c) (rf_neg_ids (fst s')) /\ In i (dm_elem d c)) \/
   (exists p b1 b2 v d1 d2 t, In (p, (b1, b2)) (rf_hang (fst s')) /\ v < dm_vars d /\
      dm_node d p v = [i] /\ dm_node d b1 v = [d1] /\ dm_node d b2 v = [d2] /\
      (0 <= t <= 1)%R /\ npt (snd s') p = along (npt (snd s') b1) (npt (snd s') b2) t /\
      (npt (snd s') b1 <> npt (snd s') b2 -> d1 <> d2 -> forall u, row_value w u = ((1 - t) * u d1 + t * u d2)%R)).
Proof.
  intros RN W H C. destruct (process_all _ _ _ _ _ RN W H) as (sE & G & _ & _ & _ & _ & SM & F & _).
  pose proof G as (I & PL & HG). pose proof (ir_sane _ _ _ I) as (_ & M).
  unfold constrain in C. destruct s' as [r' m']. cbn [fst snd] in *.
  destruct (negb (rf_init r') || negb (rf_strong r')).
  { injection C as <-. exists []. rewrite app_nil_r. split; auto. split; [constructor|]. split; [intros i []|intros i w []]. }
  destruct (zero_cells d (rf_neg_ids r') (ms_cells m') rows) as (Z & _).
  destruct (hang_all_ok _ _ _ _ _ C) as (HA & _).
  assert (Y : grown (fun i w => zero_of d (rf_neg_ids r') (ms_cells m') i w \/ hang_of d m' (rf_hang r') i w) rows rows').
  { eapply grown_trans; eapply grown_weaken; [|exact Z| |exact HA]; auto. }
  destruct Y as (new & A1 & A2 & A3 & A4). exists new. split; auto. split; auto. split; auto.
  intros i w K. destruct (A4 _ _ K) as [Q|Q]; [left; auto|]. right.
  destruct Q as ((p & b1 & b2) & v & d1 & d2 & Q1 & Q2 & Q3 & Q4 & Q5 & ->). cbn [fst snd] in *.
  assert (QH : In (p, (b1, b2)) (rf_hang (fst sE))) by (rewrite F in Q1; exact Q1).
  destruct (HG _ QH) as (dd & AN). cbn [fst snd] in AN. pose proof (placed_answers _ _ _ _ _ _ M PL AN) as (t & T & E).
  exists p, b1, b2, v, d1, d2, t. split; auto. split; auto. split; auto. split; auto. split; auto. split; auto.
  rewrite <- !(same_mesh_npt _ _ _ SM) in E. split; auto. intros NB ND u. rewrite put_value by auto.
  assert (FR : frac m' (p, (b1, b2)) = t).
  { unfold frac. cbn [fst snd]. rewrite E, dist_along by lra.
    pose proof (dist_pos (npt m' b2) (npt m' b1) ltac:(congruence)). field. lra. }
  rewrite FR. reflexivity.
Qed.
(** So a field that is affine along the edge satisfies the row of the hanging node. *)
Theorem C52_affine_fields prep a m s' b d rows rows' i w (u : nat -> R) (g : pt -> R) : renumbers prep -> wf m ->
  process_mesh prep a (refi0, m) = Ok (s', b) -> constrain d s' rows = Ok rows' -> In (i, w) rows' -> ~ In (i, w) rows -> w <> [] ->
  exists p b1 b2 v d1 d2, In (p, (b1, b2)) (rf_hang (fst s')) /\ dm_node d p v = [i] /\ dm_node d b1 v = [d1] /\ dm_node d b2 v = [d2] /\
   (npt (snd s') b1 <> npt (snd s') b2 -> d1 <> d2 ->
    (forall t, (0 <= t <= 1)%R -> g (along (npt (snd s') b1) (npt (snd s') b2) t) = ((1 - t) * g (npt (snd s') b1) + t * g (npt (snd s') b2))%R) ->
    u i = g (npt (snd s') p) -> u d1 = g (npt (snd s') b1) -> u d2 = g (npt (snd s') b2) -> u i = row_value w u).
Proof.
  intros RN W H C K1 K2 K3. destruct (C52_rows _ _ _ _ _ _ _ _ RN W H C) as (new & A1 & A2 & A3 & A4).
  rewrite A1, in_app_iff in K1. destruct K1 as [K1|K1]; [contradiction|].
  destruct (A4 _ _ K1) as [(Q & _)|(p & b1 & b2 & v & d1 & d2 & t & Q1 & Q2 & Q3 & Q4 & Q5 & Q6 & Q7 & Q8)]; [contradiction|].
  exists p, b1, b2, v, d1, d2. split; auto. split; auto. split; auto. split; auto.
  intros N1 N2 AF U U1 U2. rewrite Q8, U, U1, U2, Q7; auto.
Qed.
(** With the dofs of one rank only (all dofs in [dm_first, dm_last)): constrain() succeeds when every node
    carries one dof per variable, no foreign dof is constrained, and every dof of hanging nodes and
    of local elements with a negative subdomain id is. *)
Theorem C52_one_rank_partial prep a m s' b d rows : renumbers prep -> wf m -> a_strong a = true ->
  process_mesh prep a (refi0, m) = Ok (s', b) -> dm_first d <= dm_last d ->
  (forall p v, In p (map nd_ptr (ms_nodes (snd s'))) -> v < dm_vars d -> exists i, dm_node d p v = [i] /\ dm_first d <= i < dm_last d) ->
  (forall c i, In c (ms_cells (snd s')) -> In i (dm_elem d c) -> dm_first d <= i < dm_last d) ->
  exists new, constrain d s' rows = Ok (rows ++ new) /\
    (forall i, In i (map fst new) -> dm_first d <= i < dm_last d) /\
    (forall p b1 b2 v i, In (p, (b1, b2)) (rf_hang (fst s')) -> v < dm_vars d -> dm_node d p v = [i] -> In i (map fst (rows ++ new))) /\
    (forall c i, In c (ms_cells (snd s')) -> dm_local d c = true -> In (ce_sub c) (rf_neg_ids (fst s')) -> In i (dm_elem d c) ->
       In i (map fst (rows ++ new))).
Proof.
  intros RN W SA H FL DN DE. destruct (process_all _ _ _ _ _ RN W H) as (sE & G & _ & _ & _ & _ & SM & F & _).
  pose proof G as (I & PL & HG). pose proof (ir_sane _ _ _ I) as (_ & M).
  assert (HN : forall h, In h (rf_hang (fst s')) -> In (fst h) (map nd_ptr (ms_nodes (snd s'))) /\
     In (fst (snd h)) (map nd_ptr (ms_nodes (snd s'))) /\ In (snd (snd h)) (map nd_ptr (ms_nodes (snd s')))).
  { intros h Hh. rewrite F in Hh. destruct (HG h Hh) as (dd & AN). rewrite (same_mesh_nodes _ _ SM).
    destruct (answers_nodes _ _ _ _ _ _ M AN) as (X1 & X2 & X3). auto. }
  destruct s' as [r' m']. cbn [fst snd] in *.
  destruct (zero_cells d (rf_neg_ids r') (ms_cells m') rows) as (Z & ZC).
  destruct (hang_all_total d m' (rf_hang r')) with (rows := fold_left (zero_cell d (rf_neg_ids r')) (ms_cells m') rows) as (rows' & HA).
  { intros h v Hh Hv. destruct (HN h Hh) as (X1 & X2 & X3).
    destruct (DN _ v X1 Hv) as (i1 & -> & _). destruct (DN _ v X2 Hv) as (i2 & -> & _). destruct (DN _ v X3 Hv) as (i3 & -> & _). auto. }
  destruct (hang_all_ok _ _ _ _ _ HA) as (HB & HC).
  assert (Y : grown (fun i w => dm_first d <= i < dm_last d) rows rows').
  { eapply grown_trans; eapply grown_weaken; [|exact Z| |exact HB].
    - intros i w (_ & c & C1 & C2 & C3 & C4). eauto.
    - intros i w (h & v & d1 & d2 & X1 & X2 & X3 & _). destruct (HN h X1) as (X4 & _). destruct (DN _ v X4 X2) as (i' & X5 & X6).
      rewrite X3 in X5. injection X5 as <-. auto. }
  destruct Y as (new & A1 & A2 & A3 & A4). exists new. split; [|split; [|split]].
  - unfold constrain. rewrite F. cbn [with_done rf_init rf_strong]. rewrite SA. cbn [negb orb].
    rewrite F in HA. cbn [with_done rf_hang rf_neg_ids] in *. rewrite HA, A1. reflexivity.
  - intros i K. apply in_map_iff in K. destruct K as ((j & w) & <- & K). eapply A4; eauto.
  - intros p b1 b2 v i K1 K2 K3. rewrite <- A1. apply (HC FL (p, (b1, b2)) v i); auto. cbn [fst]. rewrite K3. left. auto.
  - intros c i K1 K2 K3 K4. rewrite <- A1. eapply grown_keys; [exact HB|]. eapply ZC; eauto.
Qed.

(** ** C73: the return value of process_mesh *)

(** True is only returned if elements were added; with a weak discontinuity false means that nothing
    was added. *)
Lemma cell_false a m0 p s s' : wf m0 -> process_cell a p s = Ok s' -> snd s' = false -> a_strong a = false ->
  snd s = false /\ rf_new_elems (fst (fst s')) = rf_new_elems (fst (fst s)) /\ ms_nodes (snd (fst s')) = ms_nodes (snd (fst s)).
Proof.
  intros W H F ST. unfold process_cell in H. destruct (find_cell _ _) as [c|]; [|discriminate]. bind_inv H.
  destruct (through (r_mode v)); [bind_inv H; bind_inv H; injection H as <-; discriminate|].
  rewrite ST in H. destruct (touches v); [injection H as <-; auto|]. destruct (r_onneg v); injection H as <-; auto.
Qed.
Lemma cells_false a m0 l : forall s s', wf m0 -> process_cells a l s = Ok s' -> snd s' = false -> a_strong a = false ->
  snd s = false /\ rf_new_elems (fst (fst s')) = rf_new_elems (fst (fst s)) /\ ms_nodes (snd (fst s')) = ms_nodes (snd (fst s)).
Proof.
  induction l as [|p l IH]; intros s s' W H F ST; cbn [process_cells] in H; [injection H as <-; auto|].
  bind_inv H. destruct (IH _ _ W H F ST) as (A & B & C). destruct (cell_false _ _ _ _ _ W E A ST) as (A' & B' & C').
  split; auto. split; congruence.
Qed.
Theorem C73_return_value_partial prep a m s' b : renumbers prep -> wf m -> process_mesh prep a (refi0, m) = Ok (s', b) ->
  (b = true -> exists k, In k (ms_cells (snd s')) /\ ~ In (ce_ptr k) (map ce_ptr (ms_cells m))) /\
  (b = false -> a_strong a = false ->
     map ce_ptr (ms_cells (snd s')) = map ce_ptr (ms_cells m) /\ ms_nodes (snd s') = ms_nodes m).
Proof.
  intros RN W H. pose proof H as H0. destruct (process_split _ _ _ _ _ W H0) as (l & sE & S1 & S2 & I & ->).
  destruct (process_all _ _ _ _ _ RN W H) as (sE' & G & _ & _ & _ & _ & SM & F & NE & _). cbn [fst snd] in *.
  pose proof (ir_ext _ _ _ (proj1 G)) as X. split.
  - intros ->. specialize (NE eq_refl). cbn [with_done rf_new_elems] in NE. 
    assert (Q : rf_new_elems (fst sE') = rf_new_elems (fst sE)) by (apply (f_equal rf_new_elems) in F; symmetry; exact F).
    destruct (rf_new_elems (fst sE)) as [|q t] eqn:E; [congruence|].
    assert (K : In q (map ce_ptr (ms_cells (snd sE')))) by (rewrite (ext_cell_ptrs _ _ _ X), in_app_iff, Q; right; left; auto).
    apply in_map_iff in K. destruct K as (k & <- & K). destruct (same_mesh_cell _ _ _ (same_sym _ _ SM) K) as (k' & K1 & K2 & _).
    exists k'. split; auto. rewrite K2. intros Z. apply in_map_iff in Z. destruct Z as (c & Z1 & Z2).
    pose proof (wf_fresh_c _ W _ Z2). pose proof (x_nc _ _ _ X (ce_ptr k) ltac:(rewrite Q; left; auto)). lia.
  - intros -> ST. destruct (cells_false a m l ((refi0, m), false) (sE, false) W S2 eq_refl ST) as (_ & A & B). cbn [fst snd] in *.
    split; auto. rewrite (ext_cell_ptrs _ _ _ (ir_ext _ _ _ I)), A. cbn. apply app_nil_r.
Qed.

(** ** C75: subdomain ids of the original elements *)

(** Cut elements move to id + inactive offset, elements on the negative side to id + negative
    offset, elements touching the level set from the negative side to one of the two, others keep
    their id (16-bit arithmetic). *)
Theorem C75_subdomain_ids prep a m s' b c r : renumbers prep -> wf m -> process_mesh prep a (refi0, m) = Ok (s', b) ->
  In c (ms_cells m) -> init (a_phi a) (cell_elem m c) (max_elem_id m) (max_node_id m) = Ok r ->
  exists k, In k (ms_cells (snd s')) /\ ce_ptr k = ce_ptr c /\ ce_type k = ce_type c /\ ce_conn k = ce_conn c /\
   let moved_by n := ce_sub k = N.modulo (ce_sub c + n) (2 ^ 16) in
   match r_mode r with
   | NO_INTERSECTION => if r_onneg r then moved_by (a_neg a) else ce_sub k = ce_sub c
   | THROUGH_NODE | COLINEAR_EDGE =>
       if length (r_neg r) =? 1 then moved_by (if a_strong a then a_in a else a_neg a)
       else ce_sub k = ce_sub c
   | _ => moved_by (a_in a)
   end.
Proof.
  intros RN W H Hc R. destruct (process_all _ _ _ _ _ RN W H) as (sE & _ & _ & _ & MV & _ & SM & _).
  pose proof (MV c r Hc R) as Q. unfold moved in Q. destruct (same_mesh_cell' _ _ _ _ SM Q) as (k & K1 & K2 & K3 & K4 & K5).
  cbn [ce_ptr ce_type ce_conn ce_sub] in *. exists k. apply find_some in K1. split; [apply K1|]. split; auto. split; auto. split; auto.
  cbv zeta. rewrite K5. unfold new_sub, touches, sub16.
  pose proof (init_inv _ _ _ _ _ R) as IV.
  assert (ON : r_mode r = THROUGH_NODE \/ r_mode r = COLINEAR_EDGE -> r_onneg r = false).
  { intros M. destruct IV as [M' _ _ _ _ _ _ _ _ _|M' _ _ _ _ _ _ _ _ _|M' _ B _ _ _ _ _ _ _ _|mm rs rn l C _ _]; auto.
    - destruct M; congruence.
    - destruct M; congruence.
    - apply (c_flags _ _ _ _ _ _ _ _ _ _ C). }
  destruct (r_mode r); cbn [through]; auto; try (destruct (r_onneg r); auto; fail);
    (destruct (length (r_neg r) =? 1); [auto|rewrite ON; auto]).
Qed.

(** ** C74: a strong discontinuity separates the two sides *)

(** If no node of a mesh of four-node elements lies on the level set (within the tolerance), then after
    processing with a strong discontinuity every element lies on one side or is the retired parent of
    pieces, and no node belongs to elements on different sides. *)
Lemma cut_through phi e sd mxe mxn r m rs rn l : cut phi e sd mxe mxn r m rs rn l -> through (r_mode r) = true.
Proof.
  intros C. rewrite (c_mode _ _ _ _ _ _ _ _ _ _ C). pose proof (c_in _ _ _ _ _ _ _ _ _ _ C) as IN. clear - IN. cases IN; reflexivity.
Qed.
Lemma no_touch phi e mxe mxn r : e_type e = QUAD4 -> init phi e mxe mxn = Ok r ->
  (forall i, i < 4 -> (tol < Rabs (phi (e_pt e i)))%R) ->
  (through (r_mode r) = true /\ (exists i, i < 4 /\ (tol < phi (e_pt e i))%R) /\ (exists i, i < 4 /\ (phi (e_pt e i) < - tol)%R)) \/
  (r_mode r = NO_INTERSECTION /\ (forall i, i < 4 -> (tol < phi (e_pt e i))%R)) \/
  (r_mode r = NO_INTERSECTION /\ (forall i, i < 4 -> (phi (e_pt e i) < - tol)%R)).
Proof.
  intros Q R G. pose proof tol_pos as TP. assert (N4 : n_nodes e = 4) by (unfold n_nodes; rewrite Q; auto).
  assert (D : forall i, i < 4 -> (tol < phi (e_pt e i))%R \/ (phi (e_pt e i) < - tol)%R).
  { intros i Hi. specialize (G i Hi). unfold Rabs in G. destruct (Rcase_abs _); [right|left]; lra. }
  assert (EX : ~ (forall i, i < 4 -> (tol < phi (e_pt e i))%R) -> exists i, i < 4 /\ (phi (e_pt e i) < - tol)%R).
  { intros NP. destruct (D 0 ltac:(lia)) as [D0|D0]; [|exists 0; split; auto; lia]. destruct (D 1 ltac:(lia)) as [D1|D1]; [|exists 1; split; auto; lia].
    destruct (D 2 ltac:(lia)) as [D2|D2]; [|exists 2; split; auto; lia]. destruct (D 3 ltac:(lia)) as [D3|D3]; [|exists 3; split; auto; lia].
    exfalso. apply NP. intros i Hi. do 4 (destruct i as [|i]; [auto|]). lia. }
  assert (EY : ~ (forall i, i < 4 -> (phi (e_pt e i) < - tol)%R) -> exists i, i < 4 /\ (tol < phi (e_pt e i))%R).
  { intros NP. destruct (D 0 ltac:(lia)) as [D0|D0]; [exists 0; split; auto; lia|]. destruct (D 1 ltac:(lia)) as [D1|D1]; [exists 1; split; auto; lia|].
    destruct (D 2 ltac:(lia)) as [D2|D2]; [exists 2; split; auto; lia|]. destruct (D 3 ltac:(lia)) as [D3|D3]; [exists 3; split; auto; lia|].
    exfalso. apply NP. intros i Hi. do 4 (destruct i as [|i]; [auto|]). lia. }
  destruct (init_inv _ _ _ _ _ R) as [M _ _ _ _ _ _ _ _ V|M _ _ _ _ _ _ _ _ V|M A B _ _ _ _ NP NN L CE|m rs rn l C NP NN]; rewrite N4 in *.
  - right. left. auto.
  - right. right. auto.
  - exfalso. destruct (EX NP) as (i & Hi & I). destruct (EY NN) as (j & Hj & J).
    destruct L as [(_ & _ & _ & L)|[(_ & _ & L)|(_ & _ & M' & L)]].
    + destruct M as [M|M]; [specialize (L M i Hi); lra|]. destruct (CE M) as (E1 & E2 & _). specialize (G _ E1). lra.
    + specialize (L j Hj). lra.
    + specialize (L i Hi). lra.
  - left. split; auto. eapply cut_through; eauto.
Qed.

Theorem C74_separated_partial prep a m s' b : renumbers prep -> wf m -> process_mesh prep a (refi0, m) = Ok (s', b) ->
  a_strong a = true -> (forall c, In c (ms_cells m) -> ce_type c = TQuad4) ->
  (forall n, In n (ms_nodes m) -> (tol < Rabs (a_phi a (nd_pt n)))%R) ->
  exists share,
  (forall k, In k (ms_cells (snd s')) -> (exists d, lies a m share k d) \/ parent a m k) /\
  (forall k k' p, In k (ms_cells (snd s')) -> In k' (ms_cells (snd s')) -> lies a m share k true -> lies a m share k' false ->
     In p (ce_conn k) -> ~ In p (ce_conn k')).
Proof.
  intros RN W H SA Q T. pose proof tol_pos as TP.
  destruct (process_all _ _ _ _ _ RN W H) as (sE & G & NG & MC & MV & J & SM & F & _).
  pose proof G as (I & _ & _). pose proof (ir_sane _ _ _ I) as (_ & M). pose proof (ir_ext _ _ _ I) as X. rewrite SA in M.
  assert (TN : forall p, In p (map nd_ptr (ms_nodes m)) -> (tol < Rabs (a_phi a (npt m p)))%R).
  { intros p Hp. destruct (find_node_in _ _ Hp) as (n & Fn). unfold npt. rewrite Fn. apply T. apply find_some in Fn. apply Fn. }
  assert (EP : forall c i p, nth_error (ce_conn c) i = Some p -> e_pt (cell_elem m c) i = npt m p) by (intros c i p E; cbn; rewrite E; auto).
  assert (CV : forall c, In c (ms_cells m) -> forall i, i < 4 -> exists p, nth_error (ce_conn c) i = Some p /\ In p (map nd_ptr (ms_nodes m))).
  { intros c Hc i Hi. destruct (wf_conn _ W _ Hc) as (LN & CN). rewrite (Q c Hc) in LN. cbn in LN.
    destruct (nth_error (ce_conn c) i) as [p|] eqn:E; [|apply nth_error_None in E; lia]. exists p. split; auto. apply CN. eapply nth_error_In; eauto. }
  assert (GD : forall c, In c (ms_cells m) -> forall i, i < 4 -> (tol < Rabs (a_phi a (e_pt (cell_elem m c) i)))%R).
  { intros c Hc i Hi. destruct (CV c Hc i Hi) as (p & E & P). rewrite (EP _ _ _ E). auto. }
  assert (QT : forall c, In c (ms_cells m) -> e_type (cell_elem m c) = QUAD4) by (intros c Hc; cbn; rewrite (Q c Hc); auto).
  exists (share_of sE). split.
  - intros k K. destruct (in_dec Nat.eq_dec (ce_ptr k) (map ce_ptr (ms_cells m))) as [O|O].
    + apply in_map_iff in O. destruct O as (c & O1 & O2). destruct (J c O2) as (r & R).
      pose proof (MV c r O2 R) as MO. unfold moved in MO. destruct (same_mesh_cell' _ _ _ _ SM MO) as (k0 & K1 & K2 & K3 & K4 & K5).
      cbn [ce_ptr ce_type ce_conn ce_sub] in *.
      assert (k0 = k).
      { assert (NDC : NoDup (map ce_ptr (ms_cells (snd s')))).
        { destruct SM as (_ & SMC & _). apply (f_equal (map (fun x => fst (fst (fst x))))) in SMC. rewrite !map_map in SMC.
          change (map ce_ptr (ms_cells (snd s')) = map ce_ptr (ms_cells (snd sE))) in SMC. rewrite SMC. eapply ext_cells_nodup; eauto. }
        pose proof (find_in ce_ptr _ _ _ NDC K eq_refl) as FI. unfold find_cell in K1. rewrite O1 in K1. congruence. }
      subst k0. 
      destruct (no_touch _ _ _ _ _ (QT c O2) R (GD c O2)) as [(TH & _)|[(MO1 & V)|(MO1 & V)]].
      * right. exists c, r. split; auto. split; auto. split; auto. split; auto. rewrite K5. unfold new_sub. rewrite TH. auto.
      * left. exists true. right. exists c. split; auto. split; auto. split; auto. intros p Hp.
        destruct (In_nth_error _ _ Hp) as (i & E). assert (Hi : i < 4) by (assert (i < length (ce_conn c)) by (apply nth_error_Some; congruence); pose proof (proj1 (wf_conn _ W _ O2)) as LN; rewrite (Q c O2) in LN; cbn in LN; lia).
        specialize (V i Hi). rewrite (EP _ _ _ E) in V. lra.
      * left. exists false. right. exists c. split; auto. split; auto. split; auto. intros p Hp.
        destruct (In_nth_error _ _ Hp) as (i & E). assert (Hi : i < 4) by (assert (i < length (ce_conn c)) by (apply nth_error_Some; congruence); pose proof (proj1 (wf_conn _ W _ O2)) as LN; rewrite (Q c O2) in LN; cbn in LN; lia).
        specialize (V i Hi). rewrite (EP _ _ _ E) in V. lra.
    + left. destruct (same_mesh_cell _ _ _ SM K) as (k' & Q1 & Q2 & Q3 & Q4 & Q5).
      assert (NE : In (ce_ptr k') (rf_new_elems (fst sE))).
      { pose proof (in_map ce_ptr _ _ Q1) as QQ. rewrite (ext_cell_ptrs _ _ _ X), in_app_iff in QQ. destruct QQ as [QQ|QQ]; auto. rewrite Q2 in QQ. contradiction. }
      destruct (NG k' Q1 NE) as (c & r & C1 & C2 & [(C3 & d & j & C4 & _)|(C3 & C4 & C5 & _)]).
      * exists d. left. exists c, r, j. split; auto. split; auto. unfold piece_child in *. rewrite <- Q4, <- Q3, <- Q5. auto.
      * exfalso. unfold touches in C4. destruct (no_touch _ _ _ _ _ (QT c C1) C2 (GD c C1)) as [(TH & _)|[(MO & _)|(MO & _)]].
        -- destruct (r_mode r); discriminate.
        -- rewrite MO in C4. discriminate.
        -- rewrite MO in C4. discriminate.
  - (* where the nodes of an element on side d come from *)
    assert (SIDE : forall k d p, lies a m (share_of sE) k d -> In p (ce_conn k) ->
       (In p (map nd_ptr (ms_nodes m)) /\ if d then (0 < a_phi a (npt m p))%R else (a_phi a (npt m p) < 0)%R) \/ exists b1 b2, answers sE b1 b2 d p).
    { intros k d p [(c & r & j & Hc & R & PC)|(c & Hc & K1 & K2 & K3)] Hp.
      - pose proof PC as (PJ & sb & SB & CN & _ & _).
        assert (TH : through (r_mode r) = true).
        { destruct (no_touch _ _ _ _ _ (QT c Hc) R (GD c Hc)) as [(TH & _)|MO]; auto. exfalso.
          assert (MO' : r_mode r = NO_INTERSECTION) by (destruct MO as [(MO & _)|(MO & _)]; auto). clear MO.
          destruct (init_inv _ _ _ _ _ R) as [_ _ _ P1 N1 _ _ _ _ _|_ _ _ P1 N1 _ _ _ _ _|M' _ _ _ _ _ _ _ _ _ _|mm rs rn l C _ _].
          - rewrite P1, N1 in PJ. destruct d; cbn in PJ; intuition discriminate.
          - rewrite P1, N1 in PJ. destruct d; cbn in PJ; intuition discriminate.
          - destruct M'; congruence.
          - apply cut_through in C. rewrite MO' in C. discriminate. }
        destruct (no_touch _ _ _ _ _ (QT c Hc) R (GD c Hc)) as [(_ & EP1 & EN1)|MO].
        2:{ exfalso. destruct MO as [(MO & _)|(MO & _)]; rewrite MO in TH; discriminate. }
        destruct (C46_pieces_partial _ _ _ _ _ R) as (PP & NN & _).
        { intros MO. rewrite MO in TH. discriminate. }
        { auto. }
        rewrite CN in Hp. unfold piece_conn in Hp. apply in_map_iff in Hp. destruct Hp as ([kk|i] & E & V).
        + left. assert (VV : In (Old kk) (verts r (Some j))) by (unfold verts; rewrite ?SB, ?(nth_error_nth _ _ _ SB); auto).
          assert (KK : kk < 4 /\ if d then (- tol <= a_phi a (e_pt (cell_elem m c) kk))%R else (a_phi a (e_pt (cell_elem m c) kk) <= tol)%R).
          { destruct d; [apply (PP _ _ PJ VV)|apply (NN _ _ PJ VV)]. }
          destruct KK as (K4 & KV). destruct (CV c Hc kk K4) as (q & E1 & E2). rewrite (nth_error_nth _ _ _ E1) in E. subst q.
          split; auto. specialize (TN p E2). rewrite (EP _ _ _ E1) in KV. unfold Rabs in TN.
          destruct d; destruct (Rcase_abs _); lra.
        + right. destruct (MC c r Hc R TH d j PJ) as (_ & _ & _ & _ & _ & U). specialize (U sb SB _ V). cbn [uses] in U.
          destruct U as (nd & b1 & b2 & q & U1 & U2 & U3 & U4). rewrite U1, (nth_error_nth _ _ _ U2), (nth_error_nth _ _ _ U3), (share_answers _ _ _ _ _ U4) in E.
          subst q. eauto.
      - left. rewrite K2 in Hp. split; [apply (wf_conn _ W _ Hc); auto|apply K3; auto]. }
    intros k k' p _ _ L1 L2 P1 P2. destruct (SIDE _ _ _ L1 P1) as [(A1 & A2)|(b1 & b2 & A1)], (SIDE _ _ _ L2 P2) as [(B1 & B2)|(b3 & b4 & B1)].
    + lra.
    + destruct (answers_new _ _ _ _ _ _ _ W G B1) as (_ & Z). contradiction.
    + destruct (answers_new _ _ _ _ _ _ _ W G A1) as (_ & Z). contradiction.
    + destruct (answers_inj _ _ _ _ _ _ _ _ _ M A1 B1) as (_ & Z). discriminate Z; auto.
Qed.
Lemma gen_cut phi e c mxe mxn m rs rn l : e_type e = QUAD4 ->
  (forall i, i < 4 -> cl (phi (e_pt e i)) = c i) ->
  noties c = true -> nocol c = true -> allP c = false -> allN c = false -> (nz c =? 1) && negb (mixed c) = false ->
  (forall mid, find_mode (nds c) (sds c) mid = Ok (m, rs, rn)) -> through m = true ->
  subs_of m rs rn = Ok l -> (length l <=? 4) = true ->
  exists r, init phi e mxe mxn = Ok r /\ cut phi e (e_sub e) mxe mxn r m rs rn l.
Proof.
  intros Q CE NT NC AP AN NZ F TH S L.
  assert (NT' : noties (fun i => cl (phi (e_pt e i))) = true) by (rewrite <- NT; unfold noties; cbn [seq forallb]; rewrite !CE by lia; reflexivity).
  destruct (init_noties phi e mxe mxn Q NT') as (k & E).
  assert (A1 : allP (fun i => cl (phi (e_pt e i))) = false) by (rewrite <- AP; unfold allP; cbn [seq forallb]; rewrite !CE by lia; reflexivity).
  assert (A2 : allN (fun i => cl (phi (e_pt e i))) = false) by (rewrite <- AN; unfold allN; cbn [seq forallb]; rewrite !CE by lia; reflexivity).
  assert (A3 : nz (fun i => cl (phi (e_pt e i))) = nz c) by (unfold nz; cbn [seq filter]; rewrite !CE by lia; reflexivity).
  assert (A4 : mixed (fun i => cl (phi (e_pt e i))) = mixed c) by (unfold mixed; cbn [seq existsb]; rewrite !CE by lia; reflexivity).
  assert (A5 : colinear (fun i => phi (e_pt e i)) (seq 0 4) = None).
  { apply colinear_none. rewrite <- NC. unfold nocol; cbn [seq forallb]; rewrite !CE by (cbn; lia). reflexivity. }
  unfold init_cls in E. cbv zeta in E. rewrite A1, A2, A3, A4, NZ, A5 in E.
  destruct (find_quad4_eval phi e (e_sub e) mxe mxn c m rs rn l CE NC (F _) TH S L) as (r & R1 & R2).
  exists r. split; [rewrite E; exact R1|exact R2].
Qed.

(** The unit square as a mesh of one element. *)
Definition cell0 : cell := mkCell 5 TQuad4 [1; 2; 3; 4] 0 7.
Definition mesh0 : mesh := mkMesh [mkNode 1 0 (square 0); mkNode 2 1 (square 1); mkNode 3 2 (square 2); mkNode 4 3 (square 3)] [cell0] [] 6.
Lemma mesh0_wf : wf mesh0.
Proof.
  assert (ND : forall l : list nat, (fix nd l := match l with [] => true | x :: t => negb (existsb (Nat.eqb x) t) && nd t end) l = true -> NoDup l).
  { induction l as [|x t IH]; intros H; constructor; apply andb_true_iff in H; destruct H as (A & B); auto.
    intros K. apply existsb_in in K. rewrite K in A. discriminate. }
  split.
  - apply ND. reflexivity.
  - cbn. repeat constructor; cbn; intuition discriminate.
  - apply ND. reflexivity.
  - cbn. intuition (subst; cbn; lia).
  - cbn. intuition (subst; cbn; lia).
  - intros x [].
  - intros c [<-|[]]. split; [reflexivity|]. cbn. intuition.
  - intros c [<-|[]]. reflexivity.
Qed.
Lemma id_renumbers : renumbers (fun m => m).
Proof. split; auto. apply same_refl. Qed.

Definition phi_opp : pt -> R := xyz (fun x y => (x - y)%R).
Definition args_opp : args := mkArgs phi_opp true 1000 5000 9.

Ltac ints := intros i Hi; do 4 (destruct i as [|i]; [cbn; try (replace (0-0)%R with 0%R by ring); try (replace (1-1)%R with 0%R by ring); try (replace (1-0)%R with 1%R by ring); try (replace (0-1)%R with (-1)%R by ring); first [apply cl_0|apply cl_1|apply cl_m1]|]); lia.
Lemma opp_run : exists l r, subs_of OPPOSITE_NODES 0 0 = Ok l /\ init phi_opp (cell_elem mesh0 cell0) (max_elem_id mesh0) (max_node_id mesh0) = Ok r /\
  cut phi_opp (cell_elem mesh0 cell0) 7 (max_elem_id mesh0) (max_node_id mesh0) r OPPOSITE_NODES 0 0 l.
Proof.
  destruct (subs_of OPPOSITE_NODES 0 0) as [l|] eqn:S; [|discriminate].
  destruct (gen_cut phi_opp (cell_elem mesh0 cell0) (mk4 Zr Ps Zr Ng) (max_elem_id mesh0) (max_node_id mesh0) OPPOSITE_NODES 0 0 l eq_refl) as (r & A & B); try reflexivity.
  - ints.
  - auto.
  - cbn in S. injection S as <-. reflexivity.
  - exists l, r. auto.
Qed.

Lemma opp_process : exists s' b, process_mesh (fun m => m) args_opp (refi0, mesh0) = Ok (s', b) /\
  map (fun c => (ce_ptr c, ce_conn c, ce_sub c)) (ms_cells (snd s')) = [(5, [1;2;3;4], 5007%N); (6, [1;2;3], 8%N); (7, [3;4;1], 1008%N)] /\
  rf_neg_ids (fst s') = [1008%N] /\ rf_hang (fst s') = [] /\ rf_init (fst s') = true /\ rf_strong (fst s') = true.
Proof.
  destruct opp_run as (l & r & S & R & C). cbn in S. injection S as <-.
  unfold process_mesh, assert_. cbn [refi0 rf_init fst snd negb].
  change (ms_cells mesh0) with [cell0]. cbn [select]. change (a_phi args_opp) with phi_opp. rewrite R. cbn [bind].
  unfold selected. rewrite (c_mode _ _ _ _ _ _ _ _ _ _ C). cbn [through orb process_cells].
  unfold process_cell. change (find_cell (snd (fst ((refi0, mesh0), false))) (ce_ptr cell0)) with (Some cell0). cbn [fst snd]. cbv zeta.
  change (a_phi args_opp) with phi_opp. rewrite R. cbn [bind]. rewrite (c_mode _ _ _ _ _ _ _ _ _ _ C). cbn [through].
  destruct (c_lists _ _ _ _ _ _ _ _ _ _ C) as (LP & LN). cbv zeta in LP, LN.
  replace (cl _) with Ps in LP, LN by (symmetry; cbn; replace (1 - 0)%R with 1%R by ring; apply cl_1). cbn in LP, LN.
  rewrite LP, LN. cbn [process_subs]. rewrite (c_rsubs _ _ _ _ _ _ _ _ _ _ C). cbn.
  eexists _, _. split; [reflexivity|]. cbn. repeat split.
Qed.
(** A run that changes the mesh and meets the hypotheses of C50, C51_children, C73 and C75. *)
Example C50_example : renumbers (fun m => m) /\ canonical (fun m : mesh => mkMesh (map (fun n => mkNode (nd_ptr n) (N.of_nat (nd_ptr n)) (nd_pt n)) (ms_nodes m))
    (map (fun c => mkCell (ce_ptr c) (ce_type c) (ce_conn c) (N.of_nat (ce_ptr c)) (ce_sub c)) (ms_cells m)) (ms_sides m) (ms_fresh m)) /\
  wf mesh0 /\ exists s b, process_mesh (fun m => m) args_opp (refi0, mesh0) = Ok (s, b) /\ length (ms_cells (snd s)) = 3 /\ ms_cells (snd s) <> ms_cells mesh0.
Proof.
  split; [apply id_renumbers|]. split.
  { intros a b (A & B & _). apply (f_equal (map (fun x : nat * pt => N.of_nat (fst x)))) in A.
    apply (f_equal (map (fun x : nat * ctype * list nat * N => N.of_nat (fst (fst (fst x)))))) in B. rewrite !map_map in *.
    split; cbn; rewrite !map_map; cbn; assumption. }
  split; [apply mesh0_wf|].
  destruct opp_process as (s & b & P & C & _). exists s, b. split; auto.
  apply (f_equal (@length _)) in C. rewrite map_length in C. cbn in C. split; auto. intros K. rewrite K in C. discriminate.
Qed.

(** The location of a node is that of the first request: later requests for another point on the same
    edge do not get it. *)
Theorem C51_location_refuted : exists l m0 ps s q p, wf m0 /\ serve false l (refi0, m0) = Ok (ps, s) /\
  nth_error l 1 = Some q /\ nth_error ps 1 = Some p /\ on_seg (npt m0 (q_a q)) (npt m0 (q_b q)) (q_pt q) /\ npt (snd s) p <> q_pt q.
Proof.
  exists [mkReq (along (square 0) (square 1) (/ 2)) true 1 2; mkReq (along (square 0) (square 1) (/ 4)) true 2 1], mesh0.
  eexists _, _, _, _. split; [apply mesh0_wf|]. split; [cbn [serve add_node mesh0 refi0]; cbn; reflexivity|].
  split; [reflexivity|]. split; [reflexivity|]. split.
  - apply on_seg_sym. exists (/ 4)%R. split; [lra|]. reflexivity.
  - cbn. intros E. injection E as E _. lra.
Qed.
Example C51_example : exists ps s, serve true [mkReq (along (square 0) (square 1) (/ 2)) true 1 2; mkReq (along (square 1) (square 0) (/ 2)) true 2 1;
    mkReq (along (square 0) (square 1) (/ 2)) false 1 2; mkReq (along (square 1) (square 2) (/ 2)) true 2 3] (refi0, mesh0) = Ok (ps, s) /\ ps = [6; 6; 7; 8].
Proof. eexists _, _. split; [cbn; reflexivity|reflexivity]. Qed.

(** Dofs not owned by the rank are constrained: the test is a disjunction that always holds. *)
Theorem C52_not_owned_refuted : exists a m s b d rows i, wf m /\ process_mesh (fun m => m) a (refi0, m) = Ok (s, b) /\
  dm_first d <= dm_last d /\ constrain d s [] = Ok rows /\ In i (map fst rows) /\ ~ (dm_first d <= i < dm_last d).
Proof.
  destruct opp_process as (s & b & P & C & N & HG & IN & ST).
  set (d := mkDof ce_conn (fun p _ => [p]) 1 1 3 (fun _ => true)).
  exists args_opp, mesh0, s, b, d, [(3, []); (4, []); (1, [])], 3. split; [apply mesh0_wf|]. split; auto. split; [cbn; lia|].
  split; [|split; [cbn; auto|cbn; lia]]. unfold constrain. destruct s as [r m]. cbn [fst snd] in *. rewrite IN, ST, HG, N. cbn [negb orb hang_all].
  f_equal. destruct (ms_cells m) as [|c1 [|c2 [|c3 [|? ?]]]]; try discriminate. cbn in C. injection C as A1 A2 A3 B1 B2 B3 C1 C2 C3.
  cbn [fold_left]. unfold zero_cell. rewrite A3, B3, C3. cbn. rewrite C2. reflexivity.
Qed.

(** A strong discontinuity through two opposite corners leaves these corners shared by the pieces of both
    sides, and the constraint on the negative side fixes them for the positive side. *)
Theorem C74_corner_refuted : exists a m s b k k' p d rows, wf m /\ process_mesh (fun m => m) a (refi0, m) = Ok (s, b) /\ a_strong a = true /\
  In k (ms_cells (snd s)) /\ In k' (ms_cells (snd s)) /\ ce_sub k = 8%N /\ ce_sub k' = 1008%N /\ In 1008%N (rf_neg_ids (fst s)) /\ ~ In 8%N (rf_neg_ids (fst s)) /\
  In p (ce_conn k) /\ In p (ce_conn k') /\ constrain d s [] = Ok rows /\ In (p, []) rows /\ dm_node d p 0 = [p].
Proof.
  destruct opp_process as (s & b & P & C & N & HG & IN & ST).
  set (d := mkDof ce_conn (fun p _ => [p]) 1 0 100 (fun _ => true)).
  assert (CS : constrain d s [] = Ok [(3, []); (4, []); (1, [])]).
  { unfold constrain. destruct s as [r m]. cbn [fst snd] in *. rewrite IN, ST, HG, N. cbn [negb orb hang_all].
    f_equal. destruct (ms_cells m) as [|c1 [|c2 [|c3 [|? ?]]]]; try discriminate. cbn in C. injection C as A1 A2 A3 B1 B2 B3 C1 C2 C3.
    cbn [fold_left]. unfold zero_cell. rewrite A3, B3, C3. cbn. rewrite C2. reflexivity. }
  destruct (ms_cells (snd s)) as [|c1 [|c2 [|c3 [|? ?]]]] eqn:EC; try discriminate. cbn in C. injection C as A1 A2 A3 B1 B2 B3 C1 C2 C3.
  exists args_opp, mesh0, s, b, c2, c3, 3, d, [(3, []); (4, []); (1, [])]. split; [apply mesh0_wf|]. split; auto. split; auto. rewrite EC.
  split; [cbn; auto|]. split; [cbn; auto|]. split; auto. split; auto. rewrite N. split; [cbn; auto|]. split; [intros [K|[]]; discriminate|].
  rewrite B2, C2. split; [cbn; auto|]. split; [cbn; auto|]. split; auto. split; [cbn; auto|reflexivity].
Qed.
Example C74_example : wf mesh0 /\ (forall c, In c (ms_cells mesh0) -> ce_type c = TQuad4) /\
  (forall n, In n (ms_nodes mesh0) -> (tol < Rabs (xyz (fun x y => (1 - 2 * x)%R) (nd_pt n)))%R) /\
  exists s b, process_mesh (fun m => m) (mkArgs (xyz (fun x y => (1 - 2 * x)%R)) true 1000 5000 9) (refi0, mesh0) = Ok (s, b).
Proof.
  split; [apply mesh0_wf|]. split; [intros c [<-|[]]; reflexivity|].
  assert (T : forall n, In n (ms_nodes mesh0) -> (tol < Rabs (xyz (fun x y => (1 - 2 * x)%R) (nd_pt n)))%R).
  { pose proof tol_lt1 as T1. cbn. intros n [<-|[<-|[<-|[<-|[]]]]]; cbn; unfold Rabs; destruct (Rcase_abs _); lra. }
  split; auto.
  destruct (C50_round_trip_quad4 (fun m => m) (mkArgs (xyz (fun x y => (1 - 2 * x)%R)) true 1000 5000 9) mesh0 id_renumbers mesh0_wf) as (s & b & _ & _ & P & _); eauto.
  - intros c [<-|[]]; reflexivity.
  - intros n Hn. specialize (T n Hn). cbn [a_phi]. lra.
Qed.

(** One corner on the level set, the others negative, strong discontinuity: an element is added but false
    is returned. *)
Definition phi_node : pt -> R := xyz (fun x y => (x * y - x - y)%R).
Definition args_node : args := mkArgs phi_node true 1000 5000 9.
Theorem C73_copy_refuted : exists a m s, wf m /\ process_mesh (fun m => m) a (refi0, m) = Ok (s, false) /\
  exists k, In k (ms_cells (snd s)) /\ ~ In (ce_ptr k) (map ce_ptr (ms_cells m)).
Proof.
  assert (CE : forall i, i < 4 -> cl (phi_node (e_pt (cell_elem mesh0 cell0) i)) = mk4 Zr Ng Ng Ng i).
  { intros i Hi. destruct i as [|i]; [cbn; replace (0 * 0 - 0 - 0)%R with 0%R by ring; apply cl_0|].
    destruct i as [|i]; [cbn; replace (1 * 0 - 1 - 0)%R with (-1)%R by ring; apply cl_m1|].
    destruct i as [|i]; [cbn; replace (1 * 1 - 1 - 1)%R with (-1)%R by ring; apply cl_m1|].
    destruct i as [|i]; [cbn; replace (0 * 1 - 0 - 1)%R with (-1)%R by ring; apply cl_m1|]. lia. }
  assert (NT : noties (fun i => cl (phi_node (e_pt (cell_elem mesh0 cell0) i))) = true) by (unfold noties; cbn [seq forallb]; rewrite !CE by lia; reflexivity).
  destruct (init_noties phi_node (cell_elem mesh0 cell0) (max_elem_id mesh0) (max_node_id mesh0) eq_refl NT) as (k & E).
  unfold init_cls in E. cbv zeta in E.
  replace (allP _) with false in E by (unfold allP; cbn [seq forallb]; rewrite !CE by lia; reflexivity).
  replace (allN _) with false in E by (unfold allN; cbn [seq forallb]; rewrite !CE by lia; reflexivity).
  replace (nz _) with 1 in E by (unfold nz; cbn [seq filter]; rewrite !CE by lia; reflexivity).
  replace (mixed _) with false in E by (unfold mixed; cbn [seq existsb]; rewrite !CE by lia; reflexivity).
  cbn [Nat.eqb andb negb] in E.
  replace (existsb _ _) with false in E by (cbn [seq existsb]; rewrite !CE by lia; reflexivity).
  exists args_node, mesh0.
  unfold process_mesh, assert_. cbn [refi0 rf_init fst snd negb].
  change (ms_cells mesh0) with [cell0]. cbn [select]. change (a_phi args_node) with phi_node. rewrite E. cbn [bind selected touches r_mode through r_neg length Nat.eqb orb process_cells].
  unfold process_cell. change (find_cell (snd (fst ((refi0, mesh0), false))) (ce_ptr cell0)) with (Some cell0). cbn [fst snd]. cbv zeta.
  change (a_phi args_node) with phi_node. rewrite E. cbn [bind r_mode through touches r_neg length Nat.eqb]. cbn [args_node a_strong].
  unfold process_negative, side_nodes. cbn [bind r_mode r_node].
  destruct k as [|[|[|[|[|k]]]]]; cbn;
    (eexists; split; [apply mesh0_wf|]; split; [reflexivity|]; cbn; eexists; split; [right; left; reflexivity|cbn; intros [K|[]]; discriminate]).
Qed.


(** One corner cut off, strong discontinuity: a hanging node is made on the opposite side, and its row
    is not empty. *)
Definition phi_adj : pt -> R := xyz (fun x y => (1 - 2 * ((1 - x) * (1 - y)))%R).
Definition args_adj : args := mkArgs phi_adj true 1000 5000 9.
Example C52_example : exists s b rows, process_mesh (fun m => m) args_adj (refi0, mesh0) = Ok (s, b) /\ wf mesh0 /\
  rf_hang (fst s) = [(7, (2, 3)); (7, (2, 3))] /\
  constrain (mkDof ce_conn (fun p _ => [p]) 1 0 100 (fun _ => true)) s [] = Ok rows /\ exists w, In (7, w) rows /\ map fst w = [2; 3].
Proof.
  destruct (subs_of ADJACENT_EDGES 3 0) as [l|] eqn:S; [|discriminate].
  destruct (gen_cut phi_adj (cell_elem mesh0 cell0) (mk4 Ng Ps Ps Ps) (max_elem_id mesh0) (max_node_id mesh0) ADJACENT_EDGES 3 0 l eq_refl) as (r & R & C); try reflexivity; auto.
  { intros i Hi. destruct i as [|i]; [cbn; replace (1 - 2 * ((1 - 0) * (1 - 0)))%R with (-1)%R by ring; apply cl_m1|].
    destruct i as [|i]; [cbn; replace (1 - 2 * ((1 - 1) * (1 - 0)))%R with 1%R by ring; apply cl_1|].
    destruct i as [|i]; [cbn; replace (1 - 2 * ((1 - 1) * (1 - 1)))%R with 1%R by ring; apply cl_1|].
    destruct i as [|i]; [cbn; replace (1 - 2 * ((1 - 0) * (1 - 1)))%R with 1%R by ring; apply cl_1|]. lia. }
  { cbn in S. injection S as <-. reflexivity. }
  cbn in S. injection S as <-.
  destruct (c_lists _ _ _ _ _ _ _ _ _ _ C) as (LP & LN). cbv zeta in LP, LN.
  replace (cl _) with Ps in LP, LN by (symmetry; cbn; replace (1 - 2 * ((1 - 0) * (1 - 1)))%R with 1%R by ring; apply cl_1). cbn in LP, LN.
  assert (MD : exists i0 p0 q0 i1 p1 q1 i2 p2 q2, r_made r = [mkMade i0 p0 (3, 0) q0 false; mkMade i1 p1 (0, 1) q1 false; mkMade i2 p2 (1, 2) q2 true]).
  { rewrite (c_made _ _ _ _ _ _ _ _ _ _ C). do 9 eexists. reflexivity. }
  destruct MD as (i0 & p0 & q0 & i1 & p1 & q1 & i2 & p2 & q2 & MD).
  assert (V : process_mesh (fun m => m) args_adj (refi0, mesh0) =
    (x <- process_cells args_adj [5] ((refi0, mesh0), false) ;; Ok ((with_done true (fst (fst x)), snd (fst x)), snd x))).
  { unfold process_mesh, assert_. cbn [refi0 rf_init fst snd negb].
    change (ms_cells mesh0) with [cell0]. cbn [select]. change (a_phi args_adj) with phi_adj. rewrite R. cbn [bind].
    unfold selected. rewrite (c_mode _ _ _ _ _ _ _ _ _ _ C). cbn [through orb].
    change (ce_ptr cell0) with 5. destruct (process_cells _ _ _) as [x|]; auto. cbn [bind]. destruct (snd x); auto. }
  rewrite V. cbn [process_cells].
  unfold process_cell. change (find_cell (snd (fst ((refi0, mesh0), false))) 5) with (Some cell0). cbn [fst snd]. cbv zeta.
  change (a_phi args_adj) with phi_adj. rewrite R. cbn [bind]. rewrite (c_mode _ _ _ _ _ _ _ _ _ _ C). cbn [through].
  rewrite LP, LN. cbn [process_subs]. rewrite (c_rsubs _ _ _ _ _ _ _ _ _ _ C). cbn [nth_error bind]. cbn [s_vert child_nodes]. rewrite MD.
  eexists _, _, _. split; [lazy -[frac square IZR Rplus Rmult Rminus Ropp Rdiv Rinv along dist]; reflexivity|]. split; [apply mesh0_wf|]. split; [reflexivity|].
  split; [lazy -[frac square IZR Rplus Rmult Rminus Ropp Rdiv Rinv along dist]; reflexivity|]. eexists. split; [repeat first [left; reflexivity|right] | reflexivity].
Qed.

Print Assumptions C50_restored.
Print Assumptions C50_process_total.
Print Assumptions C50_round_trip_quad4.
Print Assumptions C51_requests_partial.
Print Assumptions C51_requests_total.
Print Assumptions C51_children.
Print Assumptions C51_location_refuted.
Print Assumptions C52_rows.
Print Assumptions C52_affine_fields.
Print Assumptions C52_one_rank_partial.
Print Assumptions C52_not_owned_refuted.
Print Assumptions C73_return_value_partial.
Print Assumptions C73_copy_refuted.
Print Assumptions C74_separated_partial.
Print Assumptions C74_corner_refuted.
Print Assumptions C75_subdomain_ids.
