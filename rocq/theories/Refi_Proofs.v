From Coq Require Import List Arith NArith ZArith Lia Bool Reals.
From Verif Require Import Base RBool Filt_Model Isec_Model Isec_Spec Refi_Model Refi_Spec.
Import ListNotations.
Open Scope nat_scope.

(** ** same_mesh *)
Lemma same_refl m : same_mesh m m.
Proof. split; [|split]; auto. Qed.
Lemma same_sym a b : same_mesh a b -> same_mesh b a.
Proof. intros (A & B & C). split; [|split]; auto. Qed.
Lemma same_trans a b c : same_mesh a b -> same_mesh b c -> same_mesh a c.
Proof. intros (A & B & C) (A' & B' & C'). split; [|split]; congruence. Qed.

Definition nview (n : node) := (nd_ptr n, nd_pt n).
Definition cview (c : cell) := (ce_ptr c, ce_type c, ce_conn c, ce_sub c).
Definition cview0 (c : cell) := (ce_ptr c, ce_type c, ce_conn c).

(** ** The invariant of one processing run: original objects first, new ones behind them. *)
Record ext (m0 : mesh) (r : refi) (m : mesh) : Prop := {
  x_nodes : exists nn, map nview (ms_nodes m) = map nview (ms_nodes m0) ++ map nview nn /\ map nd_ptr nn = rf_new_nodes r;
  x_cells : exists oc nc, ms_cells m = oc ++ nc /\ map ce_ptr nc = rf_new_elems r /\
              map cview0 oc = map cview0 (ms_cells m0) /\
              (forall c, In c oc -> ~ In (ce_ptr c) (map fst (rf_old r)) -> In (cview c) (map cview (ms_cells m0)));
  x_sides : exists ns, ms_sides m = ms_sides m0 ++ ns /\ forall x, In x ns -> In (fst (fst x)) (rf_new_elems r);
  x_old : forall p s, In (p, s) (rf_old r) -> exists c, In c (ms_cells m0) /\ ce_ptr c = p /\ ce_sub c = s;
  x_fresh : ms_fresh m0 <= ms_fresh m;
  x_nn : forall p, In p (rf_new_nodes r) -> ms_fresh m0 <= p < ms_fresh m;
  x_nc : forall p, In p (rf_new_elems r) -> ms_fresh m0 <= p < ms_fresh m;
  x_ndn : NoDup (rf_new_nodes r);
  x_ndc : NoDup (rf_new_elems r) }.

Lemma ext_start m : forall r, rf_new_nodes r = [] -> rf_new_elems r = [] -> rf_old r = [] -> ext m r m.
Proof.
  intros r A B C. split.
  - exists []. rewrite A, app_nil_r. auto.
  - exists (ms_cells m), []. rewrite B, app_nil_r. split; auto. split; auto. split; auto.
    intros c H _. apply in_map; auto.
  - exists []. rewrite app_nil_r. split; auto. intros x [].
  - rewrite C. intros p s [].
  - lia.
  - rewrite A. intros p [].
  - rewrite B. intros p [].
  - rewrite A. constructor.
  - rewrite B. constructor.
Qed.

(** Only lists relevant to [ext]. *)
Lemma ext_refi m0 m r r' : ext m0 r m -> rf_new_nodes r' = rf_new_nodes r -> rf_new_elems r' = rf_new_elems r ->
  rf_old r' = rf_old r -> ext m0 r' m.
Proof. intros [] A B C. split; rewrite ?A, ?B, ?C; auto. Qed.

Lemma nodup_snoc {A} (l : list A) x : NoDup l -> ~ In x l -> NoDup (l ++ [x]).
Proof.
  intros N H. induction N as [|a l Ha N IH]; cbn; [constructor; auto; constructor|].
  constructor.
  - rewrite in_app_iff. cbn. intros [K|[K|[]]]; [auto|subst; apply H; left; auto].
  - apply IH. intros K. apply H. right; auto.
Qed.

Lemma ext_add_point m0 r m x : ext m0 r m ->
  ext m0 (with_node (ms_fresh m) r) (snd (add_point m x)).
Proof.
  intros E. pose proof E as []. destruct x_nodes0 as (nn & A & B). split; cbn.
  - exists (nn ++ [mkNode (ms_fresh m) (max_node_id m) x]). rewrite !map_app, A, B, app_assoc. auto.
  - exact x_cells0.
  - exact x_sides0.
  - exact x_old0.
  - lia.
  - intros p Hp. apply in_app_iff in Hp. destruct Hp as [Hp|[<-|[]]]; [|lia]. specialize (x_nn0 _ Hp). lia.
  - intros p Hp. specialize (x_nc0 _ Hp). lia.
  - apply nodup_snoc; auto. intros H. specialize (x_nn0 _ H). lia.
  - auto.
Qed.
Lemma ext_add_elem m0 r m t conn s : ext m0 r m ->
  ext m0 (with_elem (ms_fresh m) r) (snd (add_elem m t conn s)).
Proof.
  intros E. pose proof E as []. destruct x_cells0 as (oc & nc & A & B & C & D). split; cbn.
  - exact x_nodes0.
  - exists oc, (nc ++ [mkCell (ms_fresh m) t conn (max_elem_id m) s]).
    rewrite A, map_app, B, app_assoc. cbn. auto.
  - destruct x_sides0 as (ns & S1 & S2). exists ns. split; auto. intros x H. apply in_app_iff. left; auto.
  - exact x_old0.
  - lia.
  - intros p Hp. specialize (x_nn0 _ Hp). lia.
  - intros p Hp. apply in_app_iff in Hp. destruct Hp as [Hp|[<-|[]]]; [|lia]. specialize (x_nc0 _ Hp). lia.
  - auto.
  - apply nodup_snoc; auto. intros H. specialize (x_nc0 _ H). lia.
Qed.
Lemma ext_add_side m0 r m p k b : ext m0 r m -> In p (rf_new_elems r) -> ext m0 r (add_side m p k b).
Proof.
  intros E H. pose proof E as []. split; cbn; auto.
  destruct x_sides0 as (ns & S1 & S2). exists (ns ++ [(p, k, b)]). rewrite S1, app_assoc. split; auto.
  intros x Hx. apply in_app_iff in Hx. destruct Hx as [Hx|[<-|[]]]; auto.
Qed.

Definition sub_to (p : nat) (s : N) (c : cell) : cell :=
  if ce_ptr c =? p then mkCell (ce_ptr c) (ce_type c) (ce_conn c) (ce_id c) s else c.
Lemma sub_to_ptr p s c : ce_ptr (sub_to p s c) = ce_ptr c.
Proof. unfold sub_to. destruct (_ =? _); auto. Qed.
Lemma sub_to_view0 p s c : cview0 (sub_to p s c) = cview0 c.
Proof. unfold sub_to, cview0. destruct (_ =? _); auto. Qed.
Lemma set_sub_cells m p s : ms_cells (set_sub m p s) = map (sub_to p s) (ms_cells m).
Proof. reflexivity. Qed.

Lemma ext_retire m0 r m p s s' : ext m0 r m -> (exists c, In c (ms_cells m0) /\ ce_ptr c = p /\ ce_sub c = s) ->
  (forall c, In c (ms_cells m0) -> ce_ptr c < ms_fresh m0) ->
  ext m0 (with_old (p, s) r) (set_sub m p s').
Proof.
  intros E (c0 & H0 & P0 & S0) F. pose proof E as []. destruct x_cells0 as (oc & nc & A & B & C & D).
  split; cbn -[set_sub]; auto.
  - exists (map (sub_to p s') oc), nc. rewrite set_sub_cells, A, map_app. split; [|split; [|split]]; auto.
    + f_equal. rewrite <- (map_id nc) at 2. apply map_ext_in. intros c Hc. unfold sub_to.
      assert (In (ce_ptr c) (rf_new_elems r)) by (rewrite <- B; apply in_map; auto).
      specialize (x_nc0 _ H). specialize (F _ H0). rewrite (proj2 (Nat.eqb_neq _ _)); auto. lia.
    + rewrite map_map, <- C. apply map_ext. apply sub_to_view0.
    + intros c Hc Hn. rewrite map_app, in_app_iff in Hn. cbn in Hn. apply in_map_iff in Hc.
      destruct Hc as (c' & <- & Hc). rewrite sub_to_ptr in Hn.
      assert (Q : sub_to p s' c' = c').
      { unfold sub_to. rewrite (proj2 (Nat.eqb_neq _ _)); auto. }
      rewrite Q. apply D; auto.
  - intros q t Hq. apply in_app_iff in Hq. destruct Hq as [Hq|[Hq|[]]]; eauto. injection Hq as <- <-. eauto.
Qed.

(** ** add_node *)
Lemma add_node_inv x strong pos b1 b2 r m p r' m' : add_node x strong pos b1 b2 (r, m) = Ok (p, (r', m')) ->
  rf_init r = false /\ exists n1 n2, find_node m b1 = Some n1 /\ find_node m b2 = Some n2 /\
  let k := (N.min (nd_id n1) (nd_id n2), N.max (nd_id n1) (nd_id n2)) in
  let e := lookup (rf_map r) k in
  (r' = r /\ m' = m /\ (if strong then (if pos then fst e else snd e) = Some p else fst e = Some p /\ snd e = Some p)) \/
  (p = ms_fresh m /\ m' = snd (add_point m x) /\
   (if strong then (if pos then fst e else snd e) = None else fst e = None) /\
   r' = with_node p (with_map (store k (if strong then (if pos then (Some p, snd e) else (fst e, Some p)) else (Some p, Some p))) r)).
Proof.
  unfold add_node, assert_. destruct (rf_init r) eqn:I; cbn [negb]; [discriminate|].
  destruct (find_node m b1) as [n1|] eqn:F1; [|discriminate].
  destruct (find_node m b2) as [n2|] eqn:F2; [|discriminate].
  cbv zeta. intros H. split; auto. exists n1, n2. split; auto. split; auto. revert H.
  set (k := (_, _)). destruct (lookup (rf_map r) k) as [e1 e2] eqn:L. cbn [fst snd add_point].
  destruct strong; cbn [negb].
  - destruct pos.
    + destruct e1 as [q|].
      * intros H; injection H as <- <- <-. left. auto.
      * intros H; injection H as <- <- <-. right. auto.
    + destruct e2 as [q|].
      * intros H; injection H as <- <- <-. left. auto.
      * intros H; injection H as <- <- <-. right. auto.
  - destruct e1 as [q|].
    + destruct e2 as [q'|]; [|discriminate]. destruct (q =? q') eqn:E; [|discriminate].
      apply Nat.eqb_eq in E. subst q'. intros H; injection H as <- <- <-. left. auto.
    + intros H; injection H as <- <- <-. right. auto.
Qed.
Lemma ext_add_node m0 x strong pos b1 b2 s p s' : add_node x strong pos b1 b2 s = Ok (p, s') ->
  ext m0 (fst s) (snd s) -> ext m0 (fst s') (snd s').
Proof.
  destruct s as [r m], s' as [r' m']. cbn [fst snd]. intros H E.
  destruct (add_node_inv _ _ _ _ _ _ _ _ _ _ H) as (_ & n1 & n2 & _ & _ & D). cbv zeta in D.
  destruct D as [(-> & -> & _)|(-> & -> & _ & ->)]; auto.
  apply ext_add_point. eapply ext_refi; eauto.
Qed.

Ltac bind_inv H :=
  match type of H with
  | bind ?e _ = Ok _ => let E := fresh "E" in let v := fresh "v" in destruct e as [v|] eqn:E; cbn [bind] in H; [|discriminate H]
  end.

Lemma ext_child_nodes m0 a c r pos vs : forall s y, child_nodes a c r pos vs s = Ok y ->
  ext m0 (fst s) (snd s) -> ext m0 (fst (snd y)) (snd (snd y)).
Proof.
  induction vs as [|[k|j] vs IH]; intros s y H E; cbn [child_nodes] in H.
  - injection H as <-. auto.
  - destruct (nth_error _ _); [|discriminate]. bind_inv H. injection H as <-. cbn. eauto.
  - destruct (nth_error (r_made r) j) as [nd|]; [|discriminate].
    destruct (nth_error _ _) as [b1|]; [|discriminate]. destruct (nth_error _ (snd _)) as [b2|]; [|discriminate].
    bind_inv H. bind_inv H. injection H as <-. cbn [fst snd].
    eapply IH; eauto. destruct v as [p s1]. cbn [fst snd] in *.
    pose proof (ext_add_node m0 _ _ _ _ _ _ _ _ E0 E) as E2.
    destruct (m_hang nd); auto. cbn [fst snd]. eapply ext_refi; eauto.
Qed.

Lemma ext_process_subs m0 a c r pos l : forall s s', process_subs a c r pos l s = Ok s' ->
  ext m0 (fst s) (snd s) -> ext m0 (fst s') (snd s').
Proof.
  induction l as [|[j|] l IH]; intros s s' H E; cbn [process_subs] in H.
  - injection H as <-; auto.
  - destruct (nth_error _ _) as [sb|]; [|discriminate]. bind_inv H.
    destruct v as [conn [r1 m1]]. cbn [fst snd add_elem] in H.
    pose proof (ext_child_nodes m0 _ _ _ _ _ _ _ E0 E) as E1. cbn [fst snd] in E1.
    eapply IH; [exact H|]. cbn [fst snd].
    set (r2 := if pos then r1 else _).
    assert (E2 : ext m0 r2 m1) by (unfold r2; destruct pos; auto; eapply ext_refi; eauto).
    pose proof (ext_add_elem m0 r2 m1 (child_type sb) conn (child_sub a c (child_type sb) pos) E2) as E3.
    destruct (_ <=? _)%Z; auto. apply ext_add_side; auto. cbn. apply in_app_iff. right; left; auto.
  - destruct pos; [|discriminate]. eauto.
Qed.

Lemma ext_copy_nodes m0 sn conn : forall s y, copy_nodes sn conn s = Ok y ->
  ext m0 (fst s) (snd s) -> ext m0 (fst (snd y)) (snd (snd y)).
Proof.
  induction conn as [|p t IH]; intros s y H E; cbn [copy_nodes] in H.
  - injection H as <-; auto.
  - destruct (existsb _ _).
    + bind_inv H. bind_inv H. injection H as <-. cbn. eapply IH; eauto.
      destruct v as [q s1]. cbn. eapply ext_add_node; eauto.
    + bind_inv H. injection H as <-. cbn. eauto.
Qed.
Lemma ext_process_negative m0 a c r s s' : process_negative a c r s = Ok s' ->
  ext m0 (fst s) (snd s) -> ext m0 (fst s') (snd s').
Proof.
  unfold process_negative. intros H E. bind_inv H. bind_inv H. cbn [add_elem] in H. injection H as <-. cbn [fst snd].
  pose proof (ext_copy_nodes m0 _ _ _ _ E1 E) as E2.
  destruct v0 as [conn [r1 m1]]. cbn [fst snd] in *.
  apply (ext_add_elem m0 (with_neg _ r1) m1 (ce_type c) conn _).
  eapply ext_refi; eauto.
Qed.

(** Fields not touched. *)
Lemma add_node_old x strong pos b1 b2 s p s' : add_node x strong pos b1 b2 s = Ok (p, s') -> rf_old (fst s') = rf_old (fst s) /\ rf_init (fst s') = rf_init (fst s).
Proof.
  destruct s as [r m], s' as [r' m']. intros H.
  destruct (add_node_inv _ _ _ _ _ _ _ _ _ _ H) as (I & n1 & n2 & _ & _ & D). cbv zeta in D.
  destruct D as [(-> & -> & _)|(-> & -> & _ & ->)]; cbn; auto.
Qed.
Lemma child_nodes_old a c r pos vs : forall s y, child_nodes a c r pos vs s = Ok y -> rf_old (fst (snd y)) = rf_old (fst s) /\ rf_init (fst (snd y)) = rf_init (fst s).
Proof.
  induction vs as [|[k|j] vs IH]; intros s y H; cbn [child_nodes] in H.
  - injection H as <-. auto.
  - destruct (nth_error _ _); [|discriminate]. bind_inv H. injection H as <-. cbn. eauto.
  - destruct (nth_error (r_made r) j) as [nd|]; [|discriminate].
    destruct (nth_error _ _) as [b1|]; [|discriminate]. destruct (nth_error _ (snd _)) as [b2|]; [|discriminate].
    bind_inv H. bind_inv H. injection H as <-. cbn [fst snd].
    destruct v as [p s1]. destruct (add_node_old _ _ _ _ _ _ _ _ E) as (A & B). cbn [fst snd] in *.
    destruct (IH _ _ E0) as (A' & B'). rewrite A', B'. destruct (m_hang nd); cbn; auto.
Qed.
Lemma process_subs_old a c r pos l : forall s s', process_subs a c r pos l s = Ok s' -> rf_old (fst s') = rf_old (fst s) /\ rf_init (fst s') = rf_init (fst s).
Proof.
  induction l as [|[j|] l IH]; intros s s' H; cbn [process_subs] in H.
  - injection H as <-; auto.
  - destruct (nth_error _ _) as [sb|]; [|discriminate]. bind_inv H.
    destruct v as [conn [r1 m1]]. cbn [fst snd add_elem] in H.
    destruct (child_nodes_old _ _ _ _ _ _ _ E) as (A & B). cbn [fst snd] in A, B.
    destruct (IH _ _ H) as (A' & B'). rewrite A', B'. destruct pos; cbn; auto.
  - destruct pos; [|discriminate]. eauto.
Qed.
Lemma copy_nodes_old sn conn : forall s y, copy_nodes sn conn s = Ok y -> rf_old (fst (snd y)) = rf_old (fst s) /\ rf_init (fst (snd y)) = rf_init (fst s).
Proof.
  induction conn as [|p t IH]; intros s y H; cbn [copy_nodes] in H.
  - injection H as <-; auto.
  - destruct (existsb _ _).
    + bind_inv H. bind_inv H. injection H as <-. cbn. destruct v as [q s1].
      destruct (add_node_old _ _ _ _ _ _ _ _ E) as (A & B). destruct (IH _ _ E0) as (A' & B').
      cbn [fst snd] in *. rewrite A', B'. auto.
    + bind_inv H. injection H as <-. cbn. eauto.
Qed.
Lemma process_negative_old a c r s s' : process_negative a c r s = Ok s' -> rf_old (fst s') = rf_old (fst s) /\ rf_init (fst s') = rf_init (fst s).
Proof.
  unfold process_negative. intros H. bind_inv H. bind_inv H. cbn [add_elem] in H. injection H as <-. cbn.
  eapply copy_nodes_old; eauto.
Qed.

(** ** Looking up objects *)
Lemma find_in {A} (f : A -> nat) l p x : NoDup (map f l) -> In x l -> f x = p -> find (fun n => f n =? p) l = Some x.
Proof.
  induction l as [|a l IH]; intros N H E; [destruct H|]. cbn [map find] in *. inversion N; subst.
  destruct (Nat.eqb_spec (f a) (f x)) as [Q|Q].
  - destruct H as [->|H]; auto. exfalso. apply H2. rewrite Q. apply in_map; auto.
  - destruct H as [->|H]; [congruence|]. auto.
Qed.
Lemma find_some {A} (f : A -> nat) l p x : find (fun n => f n =? p) l = Some x -> In x l /\ f x = p.
Proof. intros H. apply find_some in H. destruct H as (A1 & B). apply Nat.eqb_eq in B. auto. Qed.

Lemma ext_cell_ptrs m0 r m : ext m0 r m -> map ce_ptr (ms_cells m) = map ce_ptr (ms_cells m0) ++ rf_new_elems r.
Proof.
  intros []. destruct x_cells0 as (oc & nc & A & B & C & D). rewrite A, map_app, B. f_equal.
  apply (f_equal (map (fun x => fst (fst x)))) in C. rewrite !map_map in C. exact C.
Qed.
Lemma nodup_app_intro {A} (l k : list A) : NoDup l -> NoDup k -> (forall x, In x l -> ~ In x k) -> NoDup (l ++ k).
Proof.
  intros N K H. induction N as [|a l Ha N IH]; cbn; auto. constructor.
  - rewrite in_app_iff. intros [X|X]; auto. apply (H a); [left|]; auto.
  - apply IH. intros x Hx. apply H. right; auto.
Qed.
Lemma ext_cells_nodup m0 r m : wf m0 -> ext m0 r m -> NoDup (map ce_ptr (ms_cells m)).
Proof.
  intros W E. rewrite (ext_cell_ptrs _ _ _ E). apply nodup_app_intro; [apply W|apply E|].
  intros x Hx Hy. apply in_map_iff in Hx. destruct Hx as (c & <- & Hc).
  pose proof (wf_fresh_c _ W _ Hc). pose proof (x_nc _ _ _ E _ Hy). lia.
Qed.
Lemma ext_node_ptrs m0 r m : ext m0 r m -> map nd_ptr (ms_nodes m) = map nd_ptr (ms_nodes m0) ++ rf_new_nodes r.
Proof.
  intros []. destruct x_nodes0 as (nn & A & B).
  apply (f_equal (map fst)) in A. rewrite map_app, !map_map in A.
  change (map nd_ptr (ms_nodes m) = map nd_ptr (ms_nodes m0) ++ map nd_ptr nn) in A. rewrite A, B. auto.
Qed.
Lemma ext_nodes_nodup m0 r m : wf m0 -> ext m0 r m -> NoDup (map nd_ptr (ms_nodes m)).
Proof.
  intros W E. rewrite (ext_node_ptrs _ _ _ E). apply nodup_app_intro; [apply W|apply E|].
  intros x Hx Hy. apply in_map_iff in Hx. destruct Hx as (c & <- & Hc).
  pose proof (wf_fresh_n _ W _ Hc). pose proof (x_nn _ _ _ E _ Hy). lia.
Qed.

(** An original element found in the refined mesh, not yet retired, is unchanged. *)
Lemma ext_find m0 r m p c : wf m0 -> ext m0 r m -> In p (map ce_ptr (ms_cells m0)) -> ~ In p (map fst (rf_old r)) ->
  find_cell m p = Some c -> In (cview c) (map cview (ms_cells m0)) /\ ce_ptr c = p.
Proof.
  intros W E Hp Hn F. apply find_some in F. destruct F as (F & P). split; auto.
  destruct (x_cells _ _ _ E) as (oc & nc & A & B & C & D). rewrite A, in_app_iff in F. destruct F as [F|F].
  - apply D; auto. rewrite P; auto.
  - exfalso. assert (In p (rf_new_elems r)) by (rewrite <- B, <- P; apply in_map; auto).
    apply in_map_iff in Hp. destruct Hp as (c0 & Q & Hc0). pose proof (wf_fresh_c _ W _ Hc0).
    pose proof (x_nc _ _ _ E _ H). lia.
Qed.

Definition live (m0 : mesh) (r : refi) (l : list nat) : Prop :=
  NoDup l /\ forall p, In p l -> In p (map ce_ptr (ms_cells m0)) /\ ~ In p (map fst (rf_old r)).

Lemma ext_process_cell m0 a p l s s' : wf m0 -> process_cell a p s = Ok s' ->
  ext m0 (fst (fst s)) (snd (fst s)) -> live m0 (fst (fst s)) (p :: l) ->
  ext m0 (fst (fst s')) (snd (fst s')) /\ live m0 (fst (fst s')) l /\
  rf_init (fst (fst s')) = rf_init (fst (fst s)).
Proof.
  intros W H E (N & L). unfold process_cell in H.
  destruct (find_cell _ p) as [c|] eqn:F; [|discriminate]. bind_inv H.
  destruct (L p (or_introl eq_refl)) as (Lp & Ln).
  destruct (ext_find _ _ _ _ _ W E Lp Ln F) as (V & P).
  assert (C0 : exists c0, In c0 (ms_cells m0) /\ ce_ptr c0 = ce_ptr c /\ ce_sub c0 = ce_sub c).
  { apply in_map_iff in V. destruct V as (c0 & Q & Hc0). exists c0. unfold cview in Q. injection Q as -> _ _ ->. auto. }
  inversion N as [|? ? Np Nl]; subst.
  assert (R : forall st off, ext m0 (fst st) (snd st) -> rf_old (fst st) = rf_old (fst (fst s)) ->
     rf_init (fst st) = rf_init (fst (fst s)) ->
     ext m0 (fst (retire c off st)) (snd (retire c off st)) /\ live m0 (fst (retire c off st)) l /\
     rf_init (fst (retire c off st)) = rf_init (fst (fst s))).
  { intros st off Es Eo Ei. split; [|split].
    - cbn. apply ext_retire; auto. apply W.
    - split; auto. intros q Hq. destruct (L q (or_intror Hq)) as (A & B). split; auto.
      cbn. rewrite map_app, in_app_iff, Eo. cbn. intros [K|[K|[]]]; auto. apply Np. rewrite K. auto.
    - cbn. auto. }
  destruct (through (r_mode v)).
  - bind_inv H. bind_inv H. injection H as <-. cbn [fst snd] in *.
    pose proof (ext_process_subs m0 _ _ _ _ _ _ _ E1 E) as X1. pose proof (ext_process_subs m0 _ _ _ _ _ _ _ E2 X1) as X2.
    destruct (process_subs_old _ _ _ _ _ _ _ E1) as (O1 & I1). destruct (process_subs_old _ _ _ _ _ _ _ E2) as (O2 & I2).
    apply (R v1 (a_in a)); congruence || auto.
  - destruct (touches v).
    + destruct (a_strong a).
      * bind_inv H. injection H as <-. cbn [fst snd] in *.
        pose proof (ext_process_negative m0 _ _ _ _ _ E1 E) as X1.
        destruct (process_negative_old _ _ _ _ _ E1) as (O1 & I1). apply (R v0 (a_in a)); auto.
      * injection H as <-. cbn [fst snd] in *. apply (R (fst s) (a_neg a)); auto.
    + destruct (r_onneg v); injection H as <-.
      * cbn [fst snd] in *. apply (R (fst s) (a_neg a)); auto.
      * split; auto. split; auto. split; auto. intros q Hq. apply L. right; auto.
Qed.
Lemma ext_process_cells m0 a l : forall s s', wf m0 -> process_cells a l s = Ok s' ->
  ext m0 (fst (fst s)) (snd (fst s)) -> live m0 (fst (fst s)) l ->
  ext m0 (fst (fst s')) (snd (fst s')) /\ rf_init (fst (fst s')) = rf_init (fst (fst s)).
Proof.
  induction l as [|p l IH]; intros s s' W H E L; cbn [process_cells] in H.
  - injection H as <-; auto.
  - bind_inv H. destruct (ext_process_cell _ _ _ _ _ _ W E0 E L) as (A & B & C).
    destruct (IH _ _ W H A B) as (D & F). split; auto. congruence.
Qed.

Lemma select_in a m l : forall y, select a m l = Ok y -> (forall p, In p y -> In p (map ce_ptr l)) /\ (NoDup (map ce_ptr l) -> NoDup y).
Proof.
  induction l as [|c t IH]; intros y H; cbn [select] in H.
  - injection H as <-. split; auto.
  - bind_inv H. bind_inv H. injection H as <-. destruct (IH _ eq_refl) as (A & B). destruct (selected v); cbn.
    + split; [intros p [->|Hp]; auto|]. intros N. inversion N; subst. constructor; auto. 
    + split; [intros p Hp; auto|]. intros N. inversion N; subst. auto.
Qed.

Lemma same_ext m0 r m m' : ext m0 r m -> same_mesh m' m -> ms_fresh m' = ms_fresh m -> ext m0 r m'.
Proof.
  intros E (A & B & C) F. pose proof E as [].
  destruct x_cells0 as (oc & nc & D & G & H & K).
  split; rewrite ?F, ?C; auto.
  - destruct x_nodes0 as (nn & X & Y). exists nn. split; auto. change nview with (fun n => (nd_ptr n, nd_pt n)) at 1. rewrite A. exact X.
  - change (map cview (ms_cells m') = map cview (ms_cells m)) in B. rewrite D, map_app in B.
    assert (Q : exists oc' nc', ms_cells m' = oc' ++ nc' /\ map cview oc' = map cview oc /\ map cview nc' = map cview nc).
    { clear - B. revert B. generalize (map cview nc) as b, (map cview oc) as a. intros b a0. revert a0.
      induction (ms_cells m') as [|c l IH]; intros a0 B; cbn in B.
      - destruct a0; [|discriminate]. destruct b; [|discriminate]. exists [], []. auto.
      - destruct a0 as [|x a0]; cbn in B.
        + exists [], (c :: l). auto.
        + injection B as B1 B2. destruct (IH _ B2) as (oc' & nc' & X & Y & Z). exists (c :: oc'), nc'. cbn. rewrite X, Y, B1. auto. }
    destruct Q as (oc' & nc' & Q1 & Q2 & Q3). exists oc', nc'. split; auto. split; [|split].
    + rewrite <- G. apply (f_equal (map (fun x => fst (fst (fst x))))) in Q3. rewrite !map_map in Q3. exact Q3.
    + rewrite <- H. apply (f_equal (map fst)) in Q2. rewrite !map_map in Q2. exact Q2.
    + intros c Hc Hn. assert (Hv : In (cview c) (map cview oc)) by (rewrite <- Q2; apply in_map; auto).
      apply in_map_iff in Hv. destruct Hv as (c1 & V & Hc1). rewrite <- V. apply K; auto.
      unfold cview in V. injection V as V _ _ _. rewrite V. auto.
Qed.

Lemma process_ext prep a s s' b : renumbers prep -> wf (snd s) -> rf_new_nodes (fst s) = [] -> rf_new_elems (fst s) = [] -> rf_old (fst s) = [] ->
  process_mesh prep a s = Ok (s', b) -> ext (snd s) (fst s') (snd s').
Proof.
  intros RN W A B C H. unfold process_mesh, assert_ in H. destruct (negb _); [|discriminate].
  bind_inv H. bind_inv H. injection H as <- <-.
  destruct (select_in _ _ _ _ E) as (S1 & S2).
  destruct (ext_process_cells (snd s) a v (s, false) v0 W E0) as (X & _); cbn [fst snd].
  - apply ext_start; auto.
  - split; [apply S2; apply W|]. rewrite C. intros p Hp. split; auto.
  - assert (Y : ext (snd s) (with_done (a_strong a) (fst (fst v0))) (snd (fst v0))) by (eapply ext_refi; eauto).
    destruct (snd v0); auto. eapply same_ext; eauto; apply RN.
Qed.

(** ** clear_mesh *)
Definition sub_all (l : list (nat * N)) (c : cell) : cell := fold_left (fun c x => sub_to (fst x) (sub16 (snd x)) c) l c.
Lemma sub_all_ptr l : forall c, ce_ptr (sub_all l c) = ce_ptr c.
Proof. induction l as [|x l IH]; intros c; cbn; auto. change (ce_ptr (sub_all l (sub_to (fst x) (sub16 (snd x)) c)) = ce_ptr c). rewrite IH. apply sub_to_ptr. Qed.
Lemma sub_all_view0 l : forall c, cview0 (sub_all l c) = cview0 c.
Proof. induction l as [|x l IH]; intros c; cbn; auto. change (cview0 (sub_all l (sub_to (fst x) (sub16 (snd x)) c)) = cview0 c). rewrite IH. apply sub_to_view0. Qed.
Lemma restore_ok l : forall m, (forall p s, In (p, s) l -> In p (map ce_ptr (ms_cells m))) ->
  restore l m = Ok (mkMesh (ms_nodes m) (map (sub_all l) (ms_cells m)) (ms_sides m) (ms_fresh m)).
Proof.
  induction l as [|[p s] l IH]; intros m H; cbn [restore].
  - cbn. rewrite map_id. destruct m; auto.
  - assert (F : exists c, find_cell m p = Some c).
    { unfold find_cell. specialize (H p s (or_introl eq_refl)). clear IH. induction (ms_cells m) as [|c t IHt]; [destruct H|].
      cbn [map find] in *. destruct (ce_ptr c =? p) eqn:E; eauto. destruct H as [H|H]; auto. apply Nat.eqb_neq in E. congruence. }
    destruct F as (c & F). rewrite F. rewrite IH.
    + cbn [set_sub ms_nodes ms_cells ms_sides ms_fresh]. f_equal. f_equal. rewrite map_map. reflexivity.
    + intros q t Hq. rewrite set_sub_cells, map_map. erewrite map_ext; [|intros; apply sub_to_ptr].
      apply (H q t). right; auto.
Qed.
(** The final subdomain id. *)
Lemma sub_all_sub l : forall c s, (forall p t, In (p, t) l -> p = ce_ptr c -> sub16 t = s) ->
  (In (ce_ptr c) (map fst l) -> ce_sub (sub_all l c) = s) /\ (~ In (ce_ptr c) (map fst l) -> sub_all l c = c).
Proof.
  induction l as [|[p t] l IH]; intros c s H; cbn [map fst sub_all fold_left snd]; [split; [intros []|auto]|].
  change (fold_left _ l ?x) with (sub_all l x).
  assert (H' : forall q u, In (q, u) l -> q = ce_ptr (sub_to p (sub16 t) c) -> sub16 u = s).
  { intros q u Hq. rewrite sub_to_ptr. apply H. right; auto. }
  destruct (IH (sub_to p (sub16 t) c) s H') as (A & B). rewrite sub_to_ptr in A, B.
  split.
  - intros [X|X]; [|auto]. destruct (in_dec Nat.eq_dec (ce_ptr c) (map fst l)) as [Y|Y]; auto.
    rewrite B by auto. unfold sub_to. rewrite (proj2 (Nat.eqb_eq _ _)) by auto. cbn. apply (H p t); auto. left; auto.
  - intros X. rewrite B by (intros Y; apply X; right; auto). unfold sub_to. rewrite (proj2 (Nat.eqb_neq _ _)); auto.
    intros Y; apply X; left; auto.
Qed.

Definition drop_cells (l : list nat) (cs : list cell) := filter (fun c => negb (existsb (Nat.eqb (ce_ptr c)) l)) cs.
Lemma existsb_in p l : existsb (Nat.eqb p) l = true <-> In p l.
Proof.
  rewrite existsb_exists. split.
  - intros (x & A & B). apply Nat.eqb_eq in B. subst; auto.
  - intros H. exists p. split; auto. apply Nat.eqb_refl.
Qed.
Lemma filter_filter {A} (f g : A -> bool) l : filter f (filter g l) = filter (fun x => g x && f x) l.
Proof. induction l as [|a l IH]; cbn; auto. destruct (g a) eqn:G; cbn; [destruct (f a); rewrite IH; auto|auto]. Qed.
Lemma filter_map_ptr {A} (f : A -> nat) l p : map f (filter (fun c => negb (f c =? p)) l) = filter (fun q => negb (q =? p)) (map f l).
Proof. induction l as [|a l IH]; cbn; auto. destruct (negb (f a =? p)); cbn; rewrite IH; auto. Qed.
Lemma find_exists {A} (f : A -> nat) l p : In p (map f l) -> exists c, find (fun n => f n =? p) l = Some c.
Proof.
  induction l as [|a l IH]; intros H; [destruct H|]. cbn [map find] in *. destruct (f a =? p) eqn:E; eauto.
  destruct H as [H|H]; auto. apply Nat.eqb_neq in E. congruence.
Qed.
Lemma filter_true {A} (k : list A) : filter (fun _ => true) k = k.
Proof. induction k; cbn; congruence. Qed.
Lemma del_elems_ok l : forall m, NoDup l -> (forall p, In p l -> In p (map ce_ptr (ms_cells m))) ->
  del_elems l m = Ok (mkMesh (ms_nodes m) (filter (fun c => negb (existsb (Nat.eqb (ce_ptr c)) l)) (ms_cells m))
    (filter (fun x => negb (existsb (Nat.eqb (fst (fst x))) l)) (ms_sides m)) (ms_fresh m)).
Proof.
  induction l as [|p l IH]; intros m N H; cbn [del_elems].
  - cbn. rewrite !filter_true. destruct m; auto.
  - destruct (find_exists ce_ptr (ms_cells m) p (H p (or_introl eq_refl))) as (c & F).
    unfold find_cell. rewrite F. inversion N; subst. rewrite IH; auto.
    + cbn [del_elem ms_nodes ms_cells ms_sides ms_fresh]. rewrite !filter_filter. f_equal. f_equal.
      * apply filter_ext. intros c'. cbn [existsb]. rewrite negb_orb. auto.
      * apply filter_ext. intros c'. cbn [existsb]. rewrite negb_orb. auto.
    + intros q Hq. cbn [del_elem ms_cells]. rewrite filter_map_ptr. apply filter_In. split; [apply H; right; auto|].
      destruct (Nat.eqb_spec q p); auto. subst. contradiction.
Qed.
Lemma del_nodes_ok l : forall m, NoDup l -> (forall p, In p l -> In p (map nd_ptr (ms_nodes m))) ->
  del_nodes l m = Ok (mkMesh (filter (fun c => negb (existsb (Nat.eqb (nd_ptr c)) l)) (ms_nodes m)) (ms_cells m) (ms_sides m) (ms_fresh m)).
Proof.
  induction l as [|p l IH]; intros m N H; cbn [del_nodes].
  - cbn. rewrite !filter_true. destruct m; auto.
  - destruct (find_exists nd_ptr (ms_nodes m) p (H p (or_introl eq_refl))) as (c & F).
    unfold find_node. rewrite F. inversion N; subst. rewrite IH; auto.
    + cbn [del_node ms_nodes ms_cells ms_sides ms_fresh]. rewrite !filter_filter. f_equal. f_equal.
      apply filter_ext. intros c'. cbn [existsb]. rewrite negb_orb. auto.
    + intros q Hq. cbn [del_node ms_nodes]. rewrite filter_map_ptr. apply filter_In. split; [apply H; right; auto|].
      destruct (Nat.eqb_spec q p); auto. subst. contradiction.
Qed.

Lemma filter_all {A} (f : A -> bool) l : (forall x, In x l -> f x = true) -> filter f l = l.
Proof. induction l as [|a l IH]; intros H; cbn; auto. rewrite (H a) by (left; auto). f_equal. apply IH. intros; apply H; right; auto. Qed.
Lemma filter_none {A} (f : A -> bool) l : (forall x, In x l -> f x = false) -> filter f l = [].
Proof. induction l as [|a l IH]; intros H; cbn; auto. rewrite (H a) by (left; auto). apply IH. intros; apply H; right; auto. Qed.
Lemma not_existsb p l : ~ In p l -> negb (existsb (Nat.eqb p) l) = true.
Proof. intros H. apply negb_true_iff. destruct (existsb _ _) eqn:E; auto. apply existsb_in in E. contradiction. Qed.
Lemma yes_existsb p l : In p l -> negb (existsb (Nat.eqb p) l) = false.
Proof. intros H. apply negb_false_iff. apply existsb_in. auto. Qed.

Lemma filter_map_comm {A B} (f : A -> B) (g : B -> bool) l : map f (filter (fun x => g (f x)) l) = filter g (map f l).
Proof. induction l as [|a l IH]; cbn; auto. destruct (g (f a)); cbn; rewrite IH; auto. Qed.

(** Undoing everything: the mesh without the numbering is the original one. *)
Lemma clear_ext prep m0 r m : wf m0 -> ext m0 r m ->
  exists m3 r' (b : bool), clear_mesh prep (r, m) = Ok ((r', if b then prep m3 else m3), b) /\ same_mesh m3 m0 /\
    ms_fresh m0 <= ms_fresh m3 /\
    r' = (if b then refi0 else mkRefi false false (rf_map r) [] [] [] [] []) /\
    b = negb ((length (rf_new_elems r) =? 0) && (length (rf_new_nodes r) =? 0)) /\
    (b = false -> map nd_id (ms_nodes m3) = map nd_id (ms_nodes m) /\ map ce_id (ms_cells m3) = map ce_id (ms_cells m)) /\
    ms_fresh m3 = ms_fresh m /\ (NoDup (map nd_id (ms_nodes m)) -> NoDup (map nd_id (ms_nodes m3))).
Proof.
  intros W E. pose proof E as []. destruct x_cells0 as (oc & nc & A & B & C & D).
  destruct x_sides0 as (ns & S1 & S2). destruct x_nodes0 as (nn & N1 & N2).
  unfold clear_mesh. rewrite restore_ok.
  2:{ intros p s H. rewrite (ext_cell_ptrs _ _ _ E), in_app_iff. left. destruct (x_old0 _ _ H) as (c & Hc & <- & _). apply in_map; auto. }
  cbn [bind]. rewrite del_elems_ok; auto.
  2:{ intros p H. cbn [ms_cells]. rewrite map_map. rewrite (map_ext _ ce_ptr) by (intros; apply sub_all_ptr).
      rewrite (ext_cell_ptrs _ _ _ E), in_app_iff. auto. }
  cbn [bind ms_nodes ms_cells ms_sides ms_fresh]. rewrite del_nodes_ok; auto.
  2:{ intros p H. cbn [ms_nodes]. rewrite (ext_node_ptrs _ _ _ E), in_app_iff. auto. }
  cbn [bind ms_nodes ms_cells ms_sides ms_fresh].
  eexists _, _, _. split; [reflexivity|]. split; [|split; [|split; [|split; [reflexivity|split]]]].
  - split; [|split]; cbn [ms_nodes ms_cells ms_sides].
    + change (fun n => (nd_ptr n, nd_pt n)) with nview. rewrite (filter_map_comm nview (fun x => negb (existsb (Nat.eqb (fst x)) (rf_new_nodes r)))).
      rewrite N1, filter_app, filter_all, filter_none, app_nil_r; auto.
      * intros x Hx. apply in_map_iff in Hx. destruct Hx as (n & <- & Hn). apply yes_existsb. rewrite <- N2. apply (in_map nd_ptr). auto.
      * intros x Hx. apply in_map_iff in Hx. destruct Hx as (n & <- & Hn). apply not_existsb. intros K.
        cbn in K. specialize (x_nn0 _ K). pose proof (wf_fresh_n _ W _ Hn). lia.
    + change (fun c => (ce_ptr c, ce_type c, ce_conn c, ce_sub c)) with cview. rewrite A, map_app, filter_app.
      rewrite filter_all, filter_none, app_nil_r.
      * (* original elements *)
        assert (G : forall c0 c, In c0 (ms_cells m0) -> In c oc -> cview0 c = cview0 c0 -> cview (sub_all (rf_old r) c) = cview c0).
        { intros c0 c H0 Hc V. assert (P : ce_ptr c = ce_ptr c0) by (unfold cview0 in V; congruence).
          assert (US : forall c1, In c1 (ms_cells m0) -> ce_ptr c1 = ce_ptr c0 -> c1 = c0).
          { intros c1 H1 Q. pose proof (find_in ce_ptr _ _ _ (wf_cells _ W) H1 Q) as F1.
            pose proof (find_in ce_ptr _ _ _ (wf_cells _ W) H0 eq_refl) as F2. congruence. }
          destruct (sub_all_sub (rf_old r) c (ce_sub c0)) as (X & Y).
          { intros p t Ht Q. destruct (x_old0 _ _ Ht) as (c1 & H1 & P1 & Q1). rewrite (US c1 H1) in Q1 by congruence.
            rewrite <- Q1. apply N.mod_small. apply W; auto. }
          destruct (in_dec Nat.eq_dec (ce_ptr c) (map fst (rf_old r))) as [I|I].
          - specialize (X I). pose proof (sub_all_view0 (rf_old r) c) as V'. unfold cview. rewrite X.
            unfold cview0 in V, V'. congruence.
          - rewrite (Y I). specialize (D c Hc I). apply in_map_iff in D. destruct D as (c1 & V1 & H1).
            rewrite <- V1. f_equal. apply US; auto. unfold cview in V1. congruence. }
        clear - C G. set (cs := ms_cells m0) in *. clearbody cs.
        revert cs C G. induction oc as [|c t IH]; intros cs C G; destruct cs as [|c0 cs]; try discriminate; auto.
        injection C as C1 C2 C3 C4. cbn [map]. f_equal.
        -- apply G; [left|left|]; auto. unfold cview0. congruence.
        -- apply IH; auto. intros; apply G; auto; right; auto.
      * intros c Hc. apply in_map_iff in Hc. destruct Hc as (c' & <- & Hc'). rewrite sub_all_ptr. apply yes_existsb.
        rewrite <- B. apply in_map. auto.
      * intros c Hc. apply in_map_iff in Hc. destruct Hc as (c' & <- & Hc'). rewrite sub_all_ptr. apply not_existsb.
        assert (In (ce_ptr c') (map ce_ptr (ms_cells m0))).
        { apply (in_map cview0) in Hc'. rewrite C in Hc'. apply in_map_iff in Hc'. destruct Hc' as (c1 & V & H1).
          apply in_map_iff. exists c1. split; auto. unfold cview0 in V. congruence. }
        intros K. specialize (x_nc0 _ K). apply in_map_iff in H. destruct H as (c1 & P & H1).
        pose proof (wf_fresh_c _ W _ H1). lia.
    + rewrite S1, filter_app, filter_all, filter_none, app_nil_r; auto.
      * intros x Hx. apply yes_existsb. auto.
      * intros x Hx. apply not_existsb. intros K. specialize (x_nc0 _ K). pose proof (wf_sides _ W _ Hx). lia.
  - cbn. auto.
  - destruct (rf_new_elems r) as [|p l], (rf_new_nodes r) as [|q k]; cbn; auto.
  - intros H. apply negb_false_iff in H. apply andb_prop in H. destruct H as (H1 & H2).
    apply Nat.eqb_eq in H1. apply Nat.eqb_eq in H2. cbn [ms_nodes ms_cells].
    destruct (rf_new_elems r); [|discriminate]. destruct (rf_new_nodes r); [|discriminate]. cbn [existsb negb].
    rewrite !filter_true. split; auto. rewrite map_map. apply map_ext. intros c. clear.
    revert c. induction (rf_old r) as [|x l IH]; intros c; cbn; auto. change (fold_left _ l ?x) with (sub_all l x). rewrite IH.
    unfold sub_to. destruct (_ =? _); auto.
  - split; [reflexivity|]. cbn [ms_nodes]. clear. induction (ms_nodes m) as [|n l IH]; cbn; auto.
    intros H. inversion H; subst. destruct (negb _); auto. cbn. constructor; auto.
    intros K. apply H2. apply in_map_iff in K. destruct K as (x & <- & Hx). apply filter_In in Hx. apply in_map. apply Hx.
Qed.
