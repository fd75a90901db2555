From Coq Require Import List Arith NArith ZArith Lia Bool Reals Lra.
From Verif Require Import Base BaseLemmas RBool Filt_Model Filt_Proofs2 Isec_Model Isec_Spec Isec_Proofs Isec_Proofs2 Isec_Proofs3 Isec_Proofs4 Isec_Proofs5 Isec_Props Refi_Model Refi_Spec Refi_Proofs Refi_Proofs2 Refi_Proofs3 Refi_Proofs4 Refi_Proofs5.
Import ListNotations.
Open Scope nat_scope.

(** ** Where the nodes are *)
Lemma on_seg_sym x y z : on_seg x y z -> on_seg y x z.
Proof.
  intros (t & T & ->). exists (1 - t)%R. split; [lra|]. destruct x as [[a b] c], y as [[a' b'] c']. cbn. f_equal; [f_equal|]; ring.
Qed.
Lemma on_seg_self x : on_seg x x x.
Proof. exists 0%R. split; [lra|]. destruct x as [[a b] c]. cbn. f_equal; [f_equal|]; ring. Qed.

Definition placed (s : state) : Prop := forall k d p, get (rf_map (fst s)) k d = Some p ->
  exists a b d', answers s a b d' p /\ on_seg (npt (snd s) a) (npt (snd s) b) (npt (snd s) p).
Definition hung (s : state) : Prop := forall h, In h (rf_hang (fst s)) -> exists d, answers s (fst (snd h)) (snd (snd h)) d (fst h).

Lemma answers_nodes st s a b d p : mapok st (fst s) (snd s) -> answers s a b d p ->
  In a (map nd_ptr (ms_nodes (snd s))) /\ In b (map nd_ptr (ms_nodes (snd s))) /\ In p (map nd_ptr (ms_nodes (snd s))).
Proof.
  intros M (n1 & n2 & F1 & F2 & G). apply find_some in F1. apply find_some in F2. destruct F1 as (A & <-), F2 as (B & <-).
  split; [apply in_map; auto|]. split; [apply in_map; auto|]. eapply k_nn; eauto. eapply k_new; eauto.
Qed.
Lemma placed_answers st s a b d p : mapok st (fst s) (snd s) -> placed s -> answers s a b d p ->
  on_seg (npt (snd s) a) (npt (snd s) b) (npt (snd s) p).
Proof.
  intros M P A. pose proof A as (n1 & n2 & _ & _ & G). destruct (P _ _ _ G) as (a' & b' & d' & A' & S).
  destruct (answers_inj _ _ _ _ _ _ _ _ _ M A A') as ([(-> & ->)|(-> & ->)] & _); auto. apply on_seg_sym; auto.
Qed.
Lemma hung_later s s' : later s s' -> rf_hang (fst s') = rf_hang (fst s) -> hung s -> hung s'.
Proof. intros L E H h Hh. rewrite E in Hh. destruct (H h Hh) as (d & A). exists d. eapply answers_later; eauto. Qed.
Lemma placed_mono s s' : rf_map (fst s') = rf_map (fst s) -> ms_nodes (snd s') = ms_nodes (snd s) -> placed s -> placed s'.
Proof.
  intros A B P k d p G. rewrite A in G. destruct (P _ _ _ G) as (a & b & d' & Q & S). exists a, b, d'.
  unfold answers, npt, find_node in *. rewrite A, B. auto.
Qed.
Lemma hung_mono s s' : rf_map (fst s') = rf_map (fst s) -> ms_nodes (snd s') = ms_nodes (snd s) -> rf_hang (fst s') = rf_hang (fst s) -> hung s -> hung s'.
Proof.
  intros A B C P h Hh. rewrite C in Hh. destruct (P _ Hh) as (d & Q). exists d. unfold answers, find_node in *. rewrite A, B. auto.
Qed.

Lemma placed_node x st pos b1 b2 s p s' : sane st s -> placed s -> hung s -> add_node x st pos b1 b2 s = Ok (p, s') ->
  on_seg (npt (snd s) b1) (npt (snd s) b2) x -> placed s' /\ hung s'.
Proof.
  intros S P HG H O. pose proof (later_steps _ _ _ (ss_one _ _ _ (st_node _ _ _ _ _ _ _ _ H)) (proj2 S)) as L.
  pose proof (sane_steps _ _ _ (ss_one _ _ _ (st_node _ _ _ _ _ _ _ _ H)) S) as S'.
  destruct (add_node_answers _ _ _ _ _ _ _ _ (proj2 S) H) as (A & D).
  assert (HH : rf_hang (fst s') = rf_hang (fst s)).
  { destruct s as [r m], s' as [r' m']. destruct (add_node_inv _ _ _ _ _ _ _ _ _ _ H) as (_ & n1 & n2 & _ & _ & D'). cbv zeta in D'.
    destruct D' as [(-> & -> & _)|(-> & -> & _ & ->)]; auto. }
  split; [|eapply hung_later; eauto].
  destruct D as [->|(Ep & F & D)]; auto.
  intros k d q G. destruct (D _ _ _ G) as [->|G0].
  - exists b1, b2, pos. split; auto. unfold npt at 3. rewrite F. cbn.
    assert (N1 : In b1 (map nd_ptr (ms_nodes (snd s))) /\ In b2 (map nd_ptr (ms_nodes (snd s)))).
    { destruct s as [r m], s' as [r' m']. destruct (add_node_inv _ _ _ _ _ _ _ _ _ _ H) as (_ & n1 & n2 & F1 & F2 & _).
      apply find_some in F1. apply find_some in F2. destruct F1 as (A1 & <-), F2 as (A2 & <-). split; apply in_map; auto. }
    rewrite (npt_later s s' b1 L), (npt_later s s' b2 L) by tauto. auto.
  - destruct (P _ _ _ G0) as (a & b & d' & Q & SG). exists a, b, d'. split; [eapply answers_later; eauto|].
    destruct (answers_nodes _ _ _ _ _ _ (proj2 S) Q) as (X1 & X2 & X3).
    rewrite !(npt_later s s') by auto. auto.
Qed.

Section Loc.
Variables (a : args) (m0 : mesh).
Hypothesis W : wf m0.
Definition good (s : state) : Prop := inrun (a_strong a) m0 s /\ placed s /\ hung s.

Lemma child_good c r pos vs : In c (ms_cells m0) ->
  (forall nd b1 b2, In nd (r_made r) -> nth_error (ce_conn c) (fst (m_bound nd)) = Some b1 -> nth_error (ce_conn c) (snd (m_bound nd)) = Some b2 ->
     on_seg (npt m0 b1) (npt m0 b2) (m_pt nd)) ->
  forall s y, good s -> child_nodes a c r pos vs s = Ok y -> good (snd y).
Proof.
  intros HC HB. induction vs as [|[k|j] vs IH]; intros s y G H; cbn [child_nodes] in H.
  - injection H as <-. auto.
  - destruct (nth_error _ _); [|discriminate]. bind_inv H. injection H as <-. cbn. eauto.
  - destruct (nth_error (r_made r) j) as [nd|] eqn:EN; [|discriminate].
    destruct (nth_error (ce_conn c) (fst (m_bound nd))) as [b1|] eqn:E1; [|discriminate]. destruct (nth_error (ce_conn c) (snd (m_bound nd))) as [b2|] eqn:E2; [|discriminate].
    bind_inv H. bind_inv H. injection H as <-. cbn [fst snd]. destruct v as [p s1]. cbn [fst snd] in *.
    destruct G as (I & P & HU).
    assert (NB : forall b, In b (ce_conn c) -> npt (snd s) b = npt m0 b).
    { intros b Hb. apply (npt_later (refi0, m0) s); [apply I|]. apply (wf_conn _ W _ HC). auto. }
    pose proof (st_node _ _ _ _ _ _ _ _ E) as ST.
    assert (X1 : ext m0 (fst s1) (snd s1)) by (eapply ext_add_node; [exact E|apply I]).
    pose proof (inrun_steps _ _ _ _ I (ss_one _ _ _ ST) X1) as I1.
    destruct (placed_node _ _ _ _ _ _ _ _ (ir_sane _ _ _ I) P HU E) as (P1 & H1).
    { rewrite !NB by (eapply nth_error_In; eauto). apply (HB nd); auto. eapply nth_error_In; eauto. }
    eapply IH; [|exact E0]. destruct (m_hang nd); [|split; auto].
    split; [|split].
    + eapply inrun_steps; [exact I1| |].
      * apply ss_one. destruct s1 as [r1 mm]. apply st_hang.
      * eapply ext_refi; [exact X1|..]; reflexivity.
    + apply (placed_mono s1); auto.
    + intros h Hh. destruct (add_node_answers _ _ _ _ _ _ _ _ (proj2 (ir_sane _ _ _ I)) E) as (AN & _).
      cbn [fst with_hang rf_hang] in Hh. 
      destruct (in_app_or _ _ _ Hh) as [K|[K|[]]].
      * destruct (H1 _ K) as (d & Q). exists d. exact Q.
      * subst h. cbn [fst snd]. exists pos. exact AN.
Qed.

Lemma good_mono s s' : good s -> steps (a_strong a) s s' -> ext m0 (fst s') (snd s') -> rf_map (fst s') = rf_map (fst s) ->
  ms_nodes (snd s') = ms_nodes (snd s) -> rf_hang (fst s') = rf_hang (fst s) -> good s'.
Proof.
  intros (I & P & H) ST X A B C. split; [eapply inrun_steps; eauto|]. split; [eapply placed_mono; eauto|eapply hung_mono; eauto].
Qed.

Lemma subs_good c r pos l : In c (ms_cells m0) ->
  (forall nd b1 b2, In nd (r_made r) -> nth_error (ce_conn c) (fst (m_bound nd)) = Some b1 -> nth_error (ce_conn c) (snd (m_bound nd)) = Some b2 ->
     on_seg (npt m0 b1) (npt m0 b2) (m_pt nd)) ->
  forall s s', good s -> process_subs a c r pos l s = Ok s' -> good s'.
Proof.
  intros HC HB. induction l as [|[j|] l IH]; intros s s' G H.
  - cbn in H. injection H as <-. auto.
  - destruct (subs_cons _ _ _ _ _ _ _ _ H) as (sb & conn & s1 & E & C & P & ST).
    pose proof (child_good c r pos (s_vert sb) HC HB _ _ G C) as G1. cbn [snd] in G1.
    apply (IH (after_child a c sb pos conn s1) s'); auto.
    assert (X2 : ext m0 (fst (after_child a c sb pos conn s1)) (snd (after_child a c sb pos conn s1))).
    { apply (ext_process_subs m0 a c r pos [Some j] s _); [|apply G]. cbn [process_subs]. rewrite E, C. reflexivity. }
    apply (good_mono s1); auto; unfold after_child; cbn; [destruct pos; auto| |destruct pos; auto].
    destruct (_ <=? _)%Z; auto.
  - cbn [process_subs] in H. destruct pos; [|discriminate]. eauto.
Qed.

Lemma copy_good sn conn : a_strong a = true -> forall s y, good s -> copy_nodes sn conn s = Ok y -> good (snd y).
Proof.
  intros SA. induction conn as [|p t IH]; intros s y G H; cbn [copy_nodes] in H.
  - injection H as <-. auto.
  - destruct (existsb _ _).
    + bind_inv H. bind_inv H. injection H as <-. cbn [snd]. destruct v as [q s1]. cbn [fst snd] in *.
      apply (IH s1 _); auto. destruct G as (I & P & HU). rewrite <- SA in E.
      pose proof (st_node _ _ _ _ _ _ _ _ E) as ST.
      assert (X1 : ext m0 (fst s1) (snd s1)) by (eapply ext_add_node; [exact E|apply I]).
      destruct (placed_node _ _ _ _ _ _ _ _ (ir_sane _ _ _ I) P HU E (on_seg_self _)) as (P1 & H1).
      split; [eapply inrun_steps; [exact I|apply ss_one; eauto|auto]|auto].
    + bind_inv H. injection H as <-. cbn. eauto.
Qed.
Lemma good_retire c off s : In c (ms_cells m0) -> good s -> ext m0 (fst (retire c off s)) (snd (retire c off s)) -> good (retire c off s).
Proof.
  intros HC G X. apply (good_mono s); auto. apply steps_retire.
Qed.
Lemma cell_good p l s s' : good (fst s) -> live m0 (fst (fst s)) (p :: l) -> process_cell a p s = Ok s' -> good (fst s').
Proof.
  intros G L H. pose proof G as (I & _ & _). destruct (process_cell_inrun _ _ _ _ _ _ W I L H) as (I' & _). pose proof (ir_ext _ _ _ I') as X'.
  destruct (proj2 L p (or_introl eq_refl)) as (L1 & L2).
  destruct (inrun_cell _ _ _ _ W I L1 L2) as (c & C1 & C2 & C3 & C4 & C5).
  unfold process_cell in H. rewrite C3 in H. bind_inv H. rename v into r.
  assert (HB : forall nd b1 b2, In nd (r_made r) -> nth_error (ce_conn c) (fst (m_bound nd)) = Some b1 -> nth_error (ce_conn c) (snd (m_bound nd)) = Some b2 ->
     on_seg (npt m0 b1) (npt m0 b2) (m_pt nd)).
  { intros nd b1 b2 Hn B1 B2. destruct (C48_nodes_made _ _ _ _ _ _ E Hn) as (x & X1 & _ & _ & X2 & _).
    rewrite C4 in X2. cbn [cell_elem e_pt] in X2. rewrite B1, B2 in X2. exists x. split; auto. lra. }
  destruct (through (r_mode r)).
  - bind_inv H. bind_inv H. injection H as <-. cbn [fst] in *. apply good_retire; auto.
    eapply subs_good; [exact C1|exact HB| |exact E1]. eapply subs_good; [exact C1|exact HB|exact G|exact E0].
  - destruct (touches r).
    + destruct (a_strong a) eqn:SA.
      * bind_inv H. injection H as <-. cbn [fst] in *. apply good_retire; auto.
        pose proof (ext_process_negative m0 _ _ _ _ _ E0 (ir_ext _ _ _ I)) as X1.
        unfold process_negative in E0. bind_inv E0. bind_inv E0. destruct v1 as [conn s1]. cbn [fst snd add_elem] in E0.
        injection E0 as <-. apply (good_mono s1); auto.
        -- apply (copy_good _ _ SA _ _ G E2).
        -- rewrite SA. destruct s1 as [r1 m1]. econstructor; [apply st_neg|]. apply ss_one.
           apply (st_elem true (ce_type c) conn (sub16 (ce_sub c + a_neg a)) (with_neg (sub16 (ce_sub c + a_neg a)) r1) m1).
      * injection H as <-. apply good_retire; auto.
    + destruct (r_onneg r); injection H as <-; auto. cbn [fst] in *. apply good_retire; auto.
Qed.
Lemma cells_good l : forall s s', good (fst s) -> live m0 (fst (fst s)) l -> process_cells a l s = Ok s' -> good (fst s').
Proof.
  induction l as [|p l IH]; intros s s' G L H; cbn [process_cells] in H.
  - injection H as <-. auto.
  - bind_inv H. pose proof G as (I & _ & _). destruct (process_cell_inrun _ _ _ _ _ _ W I L E) as (I' & L').
    pose proof (cell_good _ _ _ _ G L E). eauto.
Qed.
End Loc.

Lemma process_good prep a m s' b : wf m -> process_mesh prep a (refi0, m) = Ok (s', b) ->
  exists l sE, select a m (ms_cells m) = Ok l /\ process_cells a l ((refi0, m), false) = Ok (sE, b) /\
    good a m sE /\ s' = (with_done (a_strong a) (fst sE), if b then prep (snd sE) else snd sE).
Proof.
  intros W H. destruct (process_split _ _ _ _ _ W H) as (l & sE & A & B & C & D). exists l, sE.
  split; auto. split; auto. split; auto. change (good a m (fst (sE, b))).
  eapply cells_good; eauto; [|eapply select_live; eauto].
  split; [apply inrun_start; auto|]. split; [intros k d p G; cbn in G; destruct d; discriminate|intros h []].
Qed.

(** ** Constraint rows *)
Lemma existsb_keys rows d : is_constrained rows d = true <-> In d (map fst rows).
Proof.
  unfold is_constrained. rewrite existsb_exists, in_map_iff. split.
  - intros (x & A & B). apply Nat.eqb_eq in B. eauto.
  - intros (x & A & B). exists x. split; auto. apply Nat.eqb_eq. auto.
Qed.
(** [grown P rows rows']: rows were appended, each for a dof not constrained before, each satisfying P. *)
Definition grown (P : nat -> row -> Prop) (rows rows' : list (nat * row)) : Prop :=
  exists new, rows' = rows ++ new /\ NoDup (map fst new) /\ (forall i, In i (map fst new) -> ~ In i (map fst rows)) /\
    forall i w, In (i, w) new -> P i w.
Lemma grown_refl P rows : grown P rows rows.
Proof. exists []. rewrite app_nil_r. split; auto. split; [constructor|]. split; [intros i []|intros i w []]. Qed.
Lemma grown_trans (P : nat -> row -> Prop) a b c : grown P a b -> grown P b c -> grown P a c.
Proof.
  intros (x & -> & A1 & A2 & A3) (y & -> & B1 & B2 & B3). exists (x ++ y). rewrite app_assoc. split; auto. split; [|split].
  - rewrite map_app. apply nodup_app_intro; auto. intros i H1 H2. apply (B2 i H2). rewrite map_app, in_app_iff. auto.
  - intros i H. rewrite map_app, in_app_iff in H. destruct H as [H|H]; auto. intros K. apply (B2 i H). rewrite map_app, in_app_iff. auto.
  - intros i w H. apply in_app_iff in H. destruct H; auto.
Qed.
Lemma grown_weaken (P Q : nat -> row -> Prop) a b : (forall i w, P i w -> Q i w) -> grown P a b -> grown Q a b.
Proof. intros H (x & A & B & C & D). exists x. eauto 6. Qed.
Lemma grown_one (P : nat -> row -> Prop) rows i w (t : bool) : (t = true -> P i w) ->
  grown P rows (if t && negb (is_constrained rows i) then rows ++ [(i, w)] else rows).
Proof.
  intros H. destruct t; cbn [andb]; [|apply grown_refl]. destruct (is_constrained rows i) eqn:E; cbn [negb]; [apply grown_refl|].
  exists [(i, w)]. split; auto. split; [repeat constructor; intros []|]. split.
  - intros j [<-|[]] K. apply existsb_keys in K. cbn in K. congruence.
  - intros j v [K|[]]. injection K as <- <-. auto.
Qed.
Lemma grown_keys P a b i : grown P a b -> In i (map fst a) -> In i (map fst b).
Proof. intros (x & -> & _) H. rewrite map_app, in_app_iff. auto. Qed.
Lemma one_key rows i w (t : bool) : t = true -> In i (map fst (if t && negb (is_constrained rows i) then rows ++ [(i, w)] else rows)).
Proof.
  intros ->. cbn [andb]. destruct (is_constrained rows i) eqn:E; cbn [negb]; [apply existsb_keys; auto|].
  rewrite map_app, in_app_iff. right. left. auto.
Qed.
Lemma owned_always d i : dm_first d <= dm_last d -> owned_test d i = true.
Proof. intros H. unfold owned_test. destruct (Nat.leb_spec (dm_first d) i); auto. apply Nat.ltb_lt. lia. Qed.

Definition zero_of (d : dofmap) (neg : list N) (cs : list cell) (i : nat) (w : row) : Prop :=
  w = [] /\ exists c, In c cs /\ dm_local d c = true /\ In (ce_sub c) neg /\ In i (dm_elem d c).
Lemma zero_row_fold d l : forall rows, grown (fun i w => w = [] /\ In i l) rows (fold_left (zero_row d) l rows) /\
  (dm_first d <= dm_last d -> forall i, In i l -> In i (map fst (fold_left (zero_row d) l rows))).
Proof.
  induction l as [|i l IH]; intros rows; cbn [fold_left]; [split; [apply grown_refl|intros _ i []]|].
  destruct (IH (zero_row d rows i)) as (A & B). split.
  - eapply grown_trans; [|eapply grown_weaken; [|exact A]].
    + apply grown_one. intros _. split; auto. left. auto.
    + intros j w (-> & Hj). split; auto. right. auto.
  - intros F j [->|Hj]; auto. eapply grown_keys; [exact A|]. apply one_key. apply owned_always; auto.
Qed.
Lemma existsb_n x l : existsb (N.eqb x) l = true <-> In x l.
Proof. rewrite existsb_exists. split; [intros (y & A & B); apply N.eqb_eq in B; subst; auto|intros H; exists x; split; auto; apply N.eqb_refl]. Qed.
Lemma zero_cells d neg cs : forall rows, grown (zero_of d neg cs) rows (fold_left (zero_cell d neg) cs rows) /\
  (dm_first d <= dm_last d -> forall c i, In c cs -> dm_local d c = true -> In (ce_sub c) neg -> In i (dm_elem d c) ->
     In i (map fst (fold_left (zero_cell d neg) cs rows))).
Proof.
  induction cs as [|c cs IH]; intros rows; cbn [fold_left]; [split; [apply grown_refl|intros _ c i []]|].
  destruct (IH (zero_cell d neg rows c)) as (A & B). split.
  - eapply grown_trans; [|eapply grown_weaken; [|exact A]].
    + unfold zero_cell. destruct (dm_local d c && existsb (N.eqb (ce_sub c)) neg) eqn:E; [|apply grown_refl].
      apply andb_true_iff in E. destruct E as (E1 & E2). apply existsb_n in E2.
      eapply grown_weaken; [|apply zero_row_fold]. cbn. intros i w (-> & Hi). split; auto. exists c. split; [left; auto|auto].
    + intros i w (-> & c' & H1 & H2). split; auto. exists c'. split; [right; auto|auto].
  - intros F c' i [->|Hc] H1 H2 H3; eauto. eapply grown_keys; [exact A|]. unfold zero_cell. apply existsb_n in H2. rewrite H1, H2.
    cbn [andb]. apply (proj2 (zero_row_fold d (dm_elem d c') rows)); auto.
Qed.

Definition hang_of (d : dofmap) (m : mesh) (hs : list (nat * (nat * nat))) (i : nat) (w : row) : Prop :=
  exists h v d1 d2, In h hs /\ v < dm_vars d /\ dm_node d (fst h) v = [i] /\ dm_node d (fst (snd h)) v = [d1] /\
    dm_node d (snd (snd h)) v = [d2] /\ w = put d2 (frac m h) (put d1 (1 - frac m h)%R []).
Lemma hang_vars_ok d m h vs : (forall v, In v vs -> v < dm_vars d) -> forall rows rows', hang_vars d m h vs rows = Ok rows' ->
  grown (hang_of d m [h]) rows rows' /\
  (dm_first d <= dm_last d -> forall v i, In v vs -> In i (dm_node d (fst h) v) -> In i (map fst rows')).
Proof.
  induction vs as [|v vs IH]; intros HV rows rows' H; cbn [hang_vars] in H.
  - injection H as <-. split; [apply grown_refl|intros _ v i []].
  - bind_inv H. unfold hang_var in E. destruct (dm_node d (fst h) v) as [|dn [|]] eqn:E1; try discriminate.
    destruct (dm_node d (fst (snd h)) v) as [|d1 [|]] eqn:E2; try discriminate.
    destruct (dm_node d (snd (snd h)) v) as [|d2 [|]] eqn:E3; try discriminate.
    injection E as <-. destruct (IH (fun v' Hv => HV v' (or_intror Hv)) _ _ H) as (A & B). split.
    + eapply grown_trans; [|exact A]. apply grown_one. intros _. exists h, v, d1, d2.
      split; [left; auto|]. split; [apply HV; left; auto|]. auto.
    + intros F v' i [<-|Hv] Hi; eauto. rewrite E1 in Hi. destruct Hi as [<-|[]]. eapply grown_keys; [exact A|]. apply one_key. apply owned_always; auto.
Qed.
Lemma hang_all_ok d m hs : forall rows rows', hang_all d m hs rows = Ok rows' ->
  grown (hang_of d m hs) rows rows' /\
  (dm_first d <= dm_last d -> forall h v i, In h hs -> v < dm_vars d -> In i (dm_node d (fst h) v) -> In i (map fst rows')).
Proof.
  induction hs as [|h hs IH]; intros rows rows' H; cbn [hang_all] in H.
  - injection H as <-. split; [apply grown_refl|intros _ h v i []].
  - bind_inv H. destruct (hang_vars_ok d m h (seq 0 (dm_vars d))) with (rows := rows) (rows' := v) as (A & B); auto.
    { intros u Hu. apply in_seq in Hu. lia. }
    destruct (IH _ _ H) as (C & D). split.
    + eapply grown_trans; [eapply grown_weaken; [|exact A]|eapply grown_weaken; [|exact C]].
      * intros i w (h' & v' & d1 & d2 & [<-|[]] & R). exists h, v', d1, d2. split; [left; auto|auto].
      * intros i w (h' & v' & d1 & d2 & K & R). exists h', v', d1, d2. split; [right; auto|auto].
    + intros F h' u i [<-|Hh] Hu Hi; eauto. eapply grown_keys; [exact C|]. apply (B F u); auto. apply in_seq. lia.
Qed.
Lemma hang_all_total d m hs : (forall h v, In h hs -> v < dm_vars d -> length (dm_node d (fst h) v) = 1 /\
    length (dm_node d (fst (snd h)) v) = 1 /\ length (dm_node d (snd (snd h)) v) = 1) ->
  forall rows, exists rows', hang_all d m hs rows = Ok rows'.
Proof.
  assert (V : forall h vs, (forall v, In v vs -> length (dm_node d (fst h) v) = 1 /\
    length (dm_node d (fst (snd h)) v) = 1 /\ length (dm_node d (snd (snd h)) v) = 1) -> forall rows, exists rows', hang_vars d m h vs rows = Ok rows').
  { intros h. induction vs as [|v vs IH]; intros HV rows; cbn [hang_vars]; eauto. unfold hang_var.
    destruct (HV v (or_introl eq_refl)) as (A & B & C).
    destruct (dm_node d (fst h) v) as [|? [|]]; try discriminate. destruct (dm_node d (fst (snd h)) v) as [|? [|]]; try discriminate.
    destruct (dm_node d (snd (snd h)) v) as [|? [|]]; try discriminate. cbn [bind]. apply IH. intros; apply HV; right; auto. }
  induction hs as [|h hs IH]; intros HV rows; cbn [hang_all]; eauto.
  destruct (V h (seq 0 (dm_vars d))) with (rows := rows) as (r1 & ->).
  { intros v Hv. apply in_seq in Hv. apply HV; [left; auto|lia]. }
  cbn [bind]. apply IH. intros; apply HV; auto. right; auto.
Qed.

(** ** The row of a hanging node *)
Lemma dist_along x y t : (0 <= t)%R -> dist (along x y t) x = (t * dist y x)%R.
Proof.
  intros T. unfold dist, dist2. destruct x as [[a b] c], y as [[a' b'] c']. cbn.
  replace (_ + _)%R with (t * t * ((a' - a) * (a' - a) + (b' - b) * (b' - b) + (c' - c) * (c' - c)))%R by ring.
  rewrite sqrt_mult_alt by nra. rewrite sqrt_square; auto.
Qed.
Lemma dist_pos x y : x <> y -> (0 < dist x y)%R.
Proof.
  intros N. unfold dist. apply sqrt_lt_R0. destruct x as [[a b] c], y as [[a' b'] c']. cbn.
  pose proof (Rle_0_sqr (a - a')) as P1. pose proof (Rle_0_sqr (b - b')) as P2. pose proof (Rle_0_sqr (c - c')) as P3. unfold Rsqr in *.
  destruct (Req_dec a a') as [->|A].
  - destruct (Req_dec b b') as [->|B].
    + destruct (Req_dec c c') as [->|C]; [congruence|].
      assert (0 < Rsqr (c - c'))%R by (apply Rsqr_pos_lt; lra). unfold Rsqr in *. lra.
    + assert (0 < Rsqr (b - b'))%R by (apply Rsqr_pos_lt; lra). unfold Rsqr in *. lra.
  - assert (0 < Rsqr (a - a'))%R by (apply Rsqr_pos_lt; lra). unfold Rsqr in *. lra.
Qed.
Lemma put_value d1 d2 u v f : d1 <> d2 -> row_value (put d2 v (put d1 u [])) f = (u * f d1 + v * f d2)%R.
Proof.
  intros H. unfold row_value, put. cbn. rewrite (proj2 (Nat.eqb_neq d1 d2)) by auto. cbn. ring.
Qed.
