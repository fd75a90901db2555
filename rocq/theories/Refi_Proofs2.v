From Coq Require Import List Arith NArith ZArith Lia Bool Reals.
From Verif Require Import Base RBool Filt_Model Isec_Model Isec_Spec Refi_Model Refi_Spec Refi_Proofs.
Import ListNotations.
Open Scope nat_scope.

(** ** Elementary steps of a processing run *)
Inductive step (strong : bool) : state -> state -> Prop :=
| st_node x pos b1 b2 p s s' : add_node x strong pos b1 b2 s = Ok (p, s') -> step strong s s'
| st_hang h r m : step strong (r, m) (with_hang h r, m)
| st_neg n r m : step strong (r, m) (with_neg n r, m)
| st_elem t conn sd r m : step strong (r, m) (with_elem (ms_fresh m) r, snd (add_elem m t conn sd))
| st_side p k b r m : step strong (r, m) (r, add_side m p k b)
| st_old p o n r m : step strong (r, m) (with_old (p, o) r, set_sub m p n).
Inductive steps (strong : bool) : state -> state -> Prop :=
| ss_refl s : steps strong s s
| ss_step s s' s'' : step strong s s' -> steps strong s' s'' -> steps strong s s''.
Lemma ss_trans st a b c : steps st a b -> steps st b c -> steps st a c.
Proof. induction 1; auto. intros. econstructor; eauto. Qed.
Lemma ss_one st a b : step st a b -> steps st a b.
Proof. intros. econstructor; eauto. constructor. Qed.

Lemma steps_child a c r pos vs : forall s y, child_nodes a c r pos vs s = Ok y -> steps (a_strong a) s (snd y).
Proof.
  induction vs as [|[k|j] vs IH]; intros s y H; cbn [child_nodes] in H.
  - injection H as <-. constructor.
  - destruct (nth_error _ _); [|discriminate]. bind_inv H. injection H as <-. cbn. eauto.
  - destruct (nth_error (r_made r) j) as [nd|]; [|discriminate].
    destruct (nth_error _ _) as [b1|]; [|discriminate]. destruct (nth_error _ (snd _)) as [b2|]; [|discriminate].
    bind_inv H. bind_inv H. injection H as <-. cbn [fst snd]. destruct v as [p [r1 m1]]. cbn [fst snd] in *.
    econstructor; [eapply st_node; eauto|]. destruct (m_hang nd); [econstructor; [apply st_hang|]|]; eauto.
Qed.
Lemma steps_subs a c r pos l : forall s s', process_subs a c r pos l s = Ok s' -> steps (a_strong a) s s'.
Proof.
  induction l as [|[j|] l IH]; intros s s' H; cbn [process_subs] in H.
  - injection H as <-; constructor.
  - destruct (nth_error _ _) as [sb|]; [|discriminate]. bind_inv H.
    destruct v as [conn [r1 m1]]. cbn [fst snd add_elem] in H.
    eapply ss_trans; [eapply steps_child; eauto|]. cbn [snd].
    eapply ss_trans; [|eapply IH; eauto]. clear H IH.
    set (sd := child_sub _ _ _ _). set (ty := child_type _).
    apply ss_trans with (with_elem (ms_fresh m1) (if pos then r1 else with_neg sd r1), snd (add_elem m1 ty conn sd)).
    + destruct pos; [apply ss_one, st_elem|]. econstructor; [apply (st_neg _ sd)|]. apply ss_one, st_elem.
    + cbn [add_elem snd]. destruct (_ <=? _)%Z; [apply ss_one; apply st_side|constructor].
  - destruct pos; [|discriminate]. eauto.
Qed.
Lemma steps_copy sn conn : forall s y, copy_nodes sn conn s = Ok y -> steps true s (snd y).
Proof.
  induction conn as [|p t IH]; intros s y H; cbn [copy_nodes] in H.
  - injection H as <-; constructor.
  - destruct (existsb _ _).
    + bind_inv H. bind_inv H. injection H as <-. cbn. destruct v as [q s1].
      econstructor; [eapply st_node; eauto|]. eauto.
    + bind_inv H. injection H as <-. cbn. eauto.
Qed.
Lemma steps_negative a c r s s' : process_negative a c r s = Ok s' -> steps true s s'.
Proof.
  unfold process_negative. intros H. bind_inv H. bind_inv H. cbn [add_elem] in H. injection H as <-.
  eapply ss_trans; [eapply steps_copy; eauto|]. destruct v0 as [conn [r1 m1]]. cbn [snd fst].
  econstructor; [apply (st_neg _ (sub16 (ce_sub c + a_neg a)))|]. apply ss_one.
  apply (st_elem true (ce_type c) conn (sub16 (ce_sub c + a_neg a)) (with_neg _ r1) m1).
Qed.
Lemma steps_retire st c off s : steps st s (retire c off s).
Proof. destruct s as [r m]. apply ss_one. apply st_old. Qed.
Lemma steps_cell a p s s' : process_cell a p s = Ok s' -> steps (a_strong a) (fst s) (fst s').
Proof.
  unfold process_cell. destruct (find_cell _ _) as [c|]; [|discriminate]. intros H. bind_inv H.
  destruct (through _).
  - bind_inv H. bind_inv H. injection H as <-. cbn [fst].
    eapply ss_trans; [eapply steps_subs; eauto|]. eapply ss_trans; [eapply steps_subs; eauto|]. apply steps_retire.
  - destruct (touches v).
    + destruct (a_strong a) eqn:S.
      * bind_inv H. injection H as <-. cbn [fst]. eapply ss_trans; [eapply steps_negative; eauto|]. apply steps_retire.
      * injection H as <-. apply steps_retire.
    + destruct (r_onneg v); injection H as <-; [apply steps_retire|constructor].
Qed.
Lemma steps_cells a l : forall s s', process_cells a l s = Ok s' -> steps (a_strong a) (fst s) (fst s').
Proof.
  induction l as [|p l IH]; intros s s' H; cbn [process_cells] in H.
  - injection H as <-; constructor.
  - bind_inv H. eapply ss_trans; [eapply steps_cell; eauto|]. eauto.
Qed.

(** ** The node map *)
Definition get (l : list (key * entry)) (k : key) (side : bool) : option nat :=
  if side then fst (lookup l k) else snd (lookup l k).
Lemma key_eqb_true a b : key_eqb a b = true <-> a = b.
Proof.
  destruct a, b. unfold key_eqb. cbn. rewrite andb_true_iff, !N.eqb_eq. split; [intros [-> ->]; auto|intros H; injection H; auto].
Qed.
Lemma lookup_store k e l k' : lookup (store k e l) k' = if key_eqb k' k then e else lookup l k'.
Proof.
  induction l as [|[j f] l IH]; cbn [store lookup]; auto.
  destruct (key_eqb k j) eqn:A; cbn [lookup].
  - apply key_eqb_true in A. subst j. destruct (key_eqb k' k); auto.
  - rewrite IH. destruct (key_eqb k' j) eqn:B; auto. apply key_eqb_true in B. subst j.
    destruct (key_eqb k' k) eqn:C; auto. apply key_eqb_true in C. subst. rewrite (proj2 (key_eqb_true k k) eq_refl) in A. discriminate.
Qed.

Definition mkkey (n1 n2 : node) : key := (N.min (nd_id n1) (nd_id n2), N.max (nd_id n1) (nd_id n2)).
Lemma mkkey_sym a b : mkkey a b = mkkey b a.
Proof. unfold mkkey. rewrite N.min_comm, N.max_comm. auto. Qed.

(** What the map knows, with the mesh it refers to. *)
Record mapok (strong : bool) (r : refi) (m : mesh) : Prop := {
  k_ids : NoDup (map nd_id (ms_nodes m));
  k_ptr : NoDup (map nd_ptr (ms_nodes m));
  k_fresh : forall n, In n (ms_nodes m) -> nd_ptr n < ms_fresh m;
  k_new : forall k s p, get (rf_map r) k s = Some p -> In p (rf_new_nodes r);
  k_nn : forall p, In p (rf_new_nodes r) -> In p (map nd_ptr (ms_nodes m));
  k_inj : forall k k' s s' p, get (rf_map r) k s = Some p -> get (rf_map r) k' s' = Some p -> k = k' /\ (strong = true -> s = s');
  k_weak : strong = false -> forall k, get (rf_map r) k true = get (rf_map r) k false;
  k_empty : rf_new_nodes r = [] -> rf_map r = [] }.

Lemma max_id_gt m n : In n (ms_nodes m) -> (nd_id n < max_node_id m)%N.
Proof.
  unfold max_node_id. induction (ms_nodes m) as [|a l IH]; intros H; [destruct H|]. cbn [fold_right].
  destruct H as [->|H]; [lia|]. specialize (IH H). lia.
Qed.

Lemma get_store k e l k' s : get (store k e l) k' s = if key_eqb k' k then (if s then fst e else snd e) else get l k' s.
Proof. unfold get. rewrite lookup_store. destruct (key_eqb k' k); auto. Qed.

(** The new map after a node is made. *)
Lemma get_made (st : bool) (r : refi) k k' side s (pos : bool) p q :
  (if st then get (rf_map r) k pos = None else get (rf_map r) k true = None /\ get (rf_map r) k false = None) ->
  side = (if st then (if pos then (Some p, snd (lookup (rf_map r) k)) else (fst (lookup (rf_map r) k), Some p)) else (Some p, Some p)) ->
  get (store k side (rf_map r)) k' s = Some q <->
  (q = p /\ k' = k /\ (st = true -> s = pos)) \/ get (rf_map r) k' s = Some q.
Proof.
  intros N ->. rewrite get_store. destruct (key_eqb k' k) eqn:K.
  - apply key_eqb_true in K. subst k'. destruct st.
    + destruct pos, s; cbn [fst snd]; unfold get in *; split.
      * intros H; injection H as <-. left. auto.
      * intros [(-> & _)|H]; congruence.
      * auto.
      * intros [(_ & _ & H)|H]; auto. specialize (H eq_refl). discriminate.
      * auto.
      * intros [(_ & _ & H)|H]; auto. specialize (H eq_refl). discriminate.
      * intros H; injection H as <-. left. auto.
      * intros [(-> & _)|H]; congruence.
    + destruct N as (N1 & N2). split.
      * intros H. left. split; [|split; [auto|discriminate]]. destruct s; cbn in H; congruence.
      * intros [(-> & _)|H]; [destruct s; auto|]. destruct s; congruence.
  - split; auto. intros [(_ & H & _)|H]; auto. subst k'. rewrite (proj2 (key_eqb_true k k) eq_refl) in K. discriminate.
Qed.

Lemma mapok_point (st : bool) r m x k (pos : bool) e : mapok st r m ->
  (if st then get (rf_map r) k pos = None else get (rf_map r) k true = None) ->
  e = (if st then (if pos then (Some (ms_fresh m), snd (lookup (rf_map r) k)) else (fst (lookup (rf_map r) k), Some (ms_fresh m)))
       else (Some (ms_fresh m), Some (ms_fresh m))) ->
  mapok st (with_node (ms_fresh m) (with_map (store k e) r)) (snd (add_point m x)).
Proof.
  intros M N Ee. pose proof M as [].
  assert (N' : if st then get (rf_map r) k pos = None else get (rf_map r) k true = None /\ get (rf_map r) k false = None).
  { destruct st; auto. split; auto. rewrite <- k_weak0; auto. }
  pose proof (fun k' s q => get_made st r k k' e s pos (ms_fresh m) q N' Ee) as G.
  assert (FR : forall k' s, get (rf_map r) k' s = Some (ms_fresh m) -> False).
  { intros k' s H. apply k_new0 in H. apply k_nn0 in H. apply in_map_iff in H. destruct H as (n & Q & Hn).
    apply k_fresh0 in Hn. lia. }
  split; cbn [with_node with_map rf_map rf_new_nodes add_point snd ms_nodes ms_fresh].
  - rewrite map_app. cbn. apply nodup_snoc; auto. intros H. apply in_map_iff in H. destruct H as (n & Q & Hn).
    apply max_id_gt in Hn. lia.
  - rewrite map_app. cbn. apply nodup_snoc; auto. intros H. apply in_map_iff in H. destruct H as (n & Q & Hn).
    apply k_fresh0 in Hn. lia.
  - intros n Hn. apply in_app_iff in Hn. destruct Hn as [Hn|[<-|[]]]; cbn; [|lia]. apply k_fresh0 in Hn. lia.
  - intros k' s p H. apply G in H. apply in_app_iff. destruct H as [(-> & _)|H]; [right; left; auto|left; eauto].
  - intros p H. apply in_app_iff in H. rewrite map_app, in_app_iff. cbn. destruct H as [H|[<-|[]]]; auto.
  - intros k1 k2 s1 s2 p H1 H2. apply G in H1. apply G in H2.
    destruct H1 as [(P1 & K1 & S1)|H1], H2 as [(P2 & K2 & S2)|H2].
    + subst k1 k2. split; auto. intros T. rewrite S1, S2; auto.
    + exfalso. apply (FR k2 s2). congruence.
    + exfalso. apply (FR k1 s1). congruence.
    + eauto.
  - intros T k'. destruct st; [discriminate|].
    assert (Q : forall q, get (store k e (rf_map r)) k' true = Some q <-> get (store k e (rf_map r)) k' false = Some q).
    { intros q. rewrite !G. rewrite (k_weak0 eq_refl). split; intros [(A & B & C)|H]; auto; left; repeat split; auto; discriminate. }
    destruct (get (store k e (rf_map r)) k' true) eqn:A, (get (store k e (rf_map r)) k' false) eqn:B; auto.
    + symmetry. apply (Q n). auto.
    + pose proof (proj1 (Q n) eq_refl). discriminate.
    + pose proof (proj2 (Q n) eq_refl). discriminate.
  - intros H. destruct (rf_new_nodes r); discriminate.
Qed.

Lemma mapok_refi st r m r' : mapok st r m -> rf_map r' = rf_map r -> rf_new_nodes r' = rf_new_nodes r -> mapok st r' m.
Proof. intros [] A B. split; rewrite ?A, ?B; auto. Qed.
Lemma mapok_mesh st r m m' : mapok st r m -> ms_nodes m' = ms_nodes m -> ms_fresh m <= ms_fresh m' -> mapok st r m'.
Proof. intros [] A B. split; rewrite ?A; auto. intros n Hn. apply k_fresh0 in Hn. lia. Qed.
Lemma mapok_node st x pos b1 b2 s p s' : add_node x st pos b1 b2 s = Ok (p, s') ->
  mapok st (fst s) (snd s) -> mapok st (fst s') (snd s').
Proof.
  destruct s as [r m], s' as [r' m']. cbn [fst snd]. intros H E.
  destruct (add_node_inv _ _ _ _ _ _ _ _ _ _ H) as (_ & n1 & n2 & _ & _ & D). cbv zeta in D.
  destruct D as [(-> & -> & _)|(-> & -> & D & ->)]; auto.
  apply (mapok_point st r m x _ pos); auto.
Qed.
Lemma mapok_step st s s' : step st s s' -> mapok st (fst s) (snd s) -> mapok st (fst s') (snd s').
Proof.
  destruct 1; cbn [fst snd]; intros M.
  - eapply mapok_node; eauto.
  - eapply mapok_refi; eauto.
  - eapply mapok_refi; eauto.
  - eapply mapok_mesh; [eapply mapok_refi; eauto|..]; cbn; auto.
  - eapply mapok_mesh; eauto.
  - eapply mapok_mesh; [eapply mapok_refi; eauto|..]; cbn; auto.
Qed.
Lemma mapok_steps st s s' : steps st s s' -> mapok st (fst s) (snd s) -> mapok st (fst s') (snd s').
Proof. induction 1; auto. intros. eauto using mapok_step. Qed.
Lemma mapok_start st m : wf m -> mapok st refi0 m.
Proof.
  intros []. split; auto; cbn.
  - intros k [|] p H; discriminate.
  - intros p [].
  - intros k k' [|] s' p H; discriminate.
Qed.

(** ** Nothing is forgotten during a run *)
Definition later (s s' : state) : Prop :=
  (forall p n, find_node (snd s) p = Some n -> find_node (snd s') p = Some n) /\
  (forall k d p, get (rf_map (fst s)) k d = Some p -> get (rf_map (fst s')) k d = Some p) /\
  (forall p, In p (rf_new_elems (fst s)) -> In p (rf_new_elems (fst s'))) /\
  (forall p, In p (map fst (rf_old (fst s))) -> In p (map fst (rf_old (fst s')))) /\
  (forall p c, find_cell (snd s) p = Some c -> ~ In p (map fst (rf_old (fst s'))) -> find_cell (snd s') p = Some c) /\
  (forall x, In x (rf_hang (fst s)) -> In x (rf_hang (fst s'))) /\
  (forall x, In x (rf_neg_ids (fst s)) -> In x (rf_neg_ids (fst s'))).
Lemma later_refl s : later s s.
Proof. repeat split; auto. Qed.
Lemma later_trans a b c : later a b -> later b c -> later a c.
Proof.
  intros (A1 & A2 & A3 & A4 & A5 & A6 & A7) (B1 & B2 & B3 & B4 & B5 & B6 & B7). repeat split; auto.
  intros p x H N. apply B5; auto.
Qed.
Lemma find_app_some {A} (f : A -> bool) l k x : find f l = Some x -> find f (l ++ k) = Some x.
Proof. induction l as [|a l IH]; cbn; [discriminate|]. destruct (f a); auto. Qed.
Lemma later_step st s s' : mapok st (fst s) (snd s) -> step st s s' -> later s s'.
Proof.
  intros M. destruct 1; cbn [fst snd] in *.
  - destruct s as [r m], s' as [r' m']. cbn [fst snd] in *.
    destruct (add_node_inv _ _ _ _ _ _ _ _ _ _ H) as (_ & n1 & n2 & _ & _ & D). cbv zeta in D.
    destruct D as [(-> & -> & _)|(-> & -> & D & ->)]; [apply later_refl|].
    unfold later; cbn. split; [|split; [|split; [|split; [|split; [|split]]]]]; auto.
    + intros q n Q. unfold find_node in *. cbn. apply find_app_some. auto.
    + intros k d q Q. apply (get_made st r (mkkey n1 n2) k _ d pos (ms_fresh m) q); auto.
      unfold get. unfold mkkey. destruct st; [destruct pos; auto|]. split; auto.
      pose proof (k_weak _ _ _ M eq_refl (mkkey n1 n2)) as Wk. unfold get, mkkey in Wk. rewrite <- Wk. auto.
  - unfold later; cbn. split; [|split; [|split; [|split; [|split; [|split]]]]]; auto. intros. apply in_app_iff. auto.
  - unfold later; cbn. split; [|split; [|split; [|split; [|split; [|split]]]]]; auto.
  - unfold later; cbn. split; [|split; [|split; [|split; [|split; [|split]]]]]; auto.
    + intros. apply in_app_iff. auto.
    + intros. unfold find_cell in *. cbn. apply find_app_some. auto.
  - unfold later; cbn. split; [|split; [|split; [|split; [|split; [|split]]]]]; auto.
  - unfold later; cbn -[set_sub]. split; [|split; [|split; [|split; [|split; [|split]]]]]; auto.
    + intros q Hq. rewrite map_app, in_app_iff. auto.
    + intros q c H Hn. rewrite map_app, in_app_iff in Hn. cbn in Hn. unfold find_cell in *.
      rewrite set_sub_cells. revert H. induction (ms_cells m) as [|c1 l IH]; cbn [map find]; [discriminate|].
      rewrite sub_to_ptr. destruct (Nat.eqb_spec (ce_ptr c1) q) as [E|E]; auto.
      intros H; injection H as <-. unfold sub_to. rewrite (proj2 (Nat.eqb_neq _ _)); auto. intros K. apply Hn. right; left; congruence.
Qed.
Lemma later_steps st s s' : steps st s s' -> mapok st (fst s) (snd s) -> later s s'.
Proof.
  induction 1; intros M; [apply later_refl|]. eapply later_trans; [eapply later_step; eauto|].
  apply IHsteps. eapply mapok_step; eauto.
Qed.
