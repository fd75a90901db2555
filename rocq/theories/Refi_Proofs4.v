From Coq Require Import List Arith NArith ZArith Lia Bool Reals Lra.
From Verif Require Import Base BaseLemmas RBool Filt_Model Filt_Proofs2 Isec_Model Isec_Spec Isec_Proofs Isec_Proofs2 Isec_Proofs3 Isec_Proofs4 Isec_Proofs5 Isec_Props Refi_Model Refi_Spec Refi_Proofs Refi_Proofs2 Refi_Proofs3.
Import ListNotations.
Open Scope nat_scope.

(** ** A run from a clean object *)
Record inrun (st : bool) (m0 : mesh) (s : state) : Prop := {
  ir_sane : sane st s; ir_ext : ext m0 (fst s) (snd s); ir_later : later (refi0, m0) s }.
Lemma inrun_start st m : wf m -> inrun st m (refi0, m).
Proof.
  intros W. split; [split; [reflexivity|apply mapok_start; auto]|apply ext_start; reflexivity|apply later_refl].
Qed.
Lemma inrun_steps st m0 s s' : inrun st m0 s -> steps st s s' -> ext m0 (fst s') (snd s') -> inrun st m0 s'.
Proof.
  intros [A B C] S E. split; auto; [eapply sane_steps; eauto|]. eapply later_trans; eauto. eapply later_steps; eauto. apply A.
Qed.
Lemma inrun_cell st m0 s p : wf m0 -> inrun st m0 s -> In p (map ce_ptr (ms_cells m0)) -> ~ In p (map fst (rf_old (fst s))) ->
  exists c, In c (ms_cells m0) /\ ce_ptr c = p /\ find_cell (snd s) p = Some c /\ cell_elem (snd s) c = cell_elem m0 c /\
    (forall q, In q (ce_conn c) -> In q (map nd_ptr (ms_nodes (snd s)))).
Proof.
  intros W [A B C] Hp Hn. destruct (find_exists ce_ptr _ _ Hp) as (c & F). pose proof (find_some _ _ _ _ F) as (F1 & F2).
  exists c. split; auto. split; auto. pose proof C as (_ & _ & _ & _ & L & _). split; [apply L; auto|].
  destruct (wf_conn _ W _ F1) as (_ & CN).
  split; [apply (cell_elem_later _ _ _ C); auto|]. intros q Hq. apply (nodes_later _ _ _ C). auto.
Qed.
Lemma process_cell_inrun a m0 p l s s' : wf m0 -> inrun (a_strong a) m0 (fst s) -> live m0 (fst (fst s)) (p :: l) ->
  process_cell a p s = Ok s' -> inrun (a_strong a) m0 (fst s') /\ live m0 (fst (fst s')) l.
Proof.
  intros W I L H. destruct (ext_process_cell _ _ _ _ _ _ W H (ir_ext _ _ _ I) L) as (A & B & _). split; auto.
  eapply inrun_steps; eauto. eapply steps_cell; eauto.
Qed.
Definition inits (a : args) (m0 : mesh) : Prop := forall c, In c (ms_cells m0) ->
  exists r, init (a_phi a) (cell_elem m0 c) (max_elem_id m0) (max_node_id m0) = Ok r.
Lemma process_cells_total a m0 l : forall s, wf m0 -> inits a m0 -> inrun (a_strong a) m0 (fst s) -> live m0 (fst (fst s)) l ->
  exists s', process_cells a l s = Ok s'.
Proof.
  induction l as [|p l IH]; intros s W J I L; cbn [process_cells]; eauto.
  destruct (proj2 L p (or_introl eq_refl)) as (L1 & L2).
  destruct (inrun_cell _ _ _ _ W I L1 L2) as (c & C1 & C2 & C3 & C4 & C5).
  destruct (J c C1) as (r & R). rewrite <- C4 in R.
  destruct (init_ids _ _ _ _ (max_elem_id (snd (fst s))) (max_node_id (snd (fst s))) _ R) as (r' & R' & _).
  destruct (process_cell_total a p s c r' (ir_sane _ _ _ I) C3 (proj1 (wf_conn _ W _ C1)) C5 R') as (s1 & E).
  rewrite E. cbn [bind]. destruct (process_cell_inrun _ _ _ _ _ _ W I L E) as (I1 & L1'). auto.
Qed.
Lemma select_total a m l : (forall c, In c l -> exists r, init (a_phi a) (cell_elem m c) (max_elem_id m) (max_node_id m) = Ok r) ->
  exists y, select a m l = Ok y.
Proof.
  induction l as [|c t IH]; intros H; cbn [select]; eauto.
  destruct (H c (or_introl eq_refl)) as (r & ->). cbn [bind].
  destruct IH as (y & ->); [intros; apply H; right; auto|]. cbn; eauto.
Qed.
Lemma select_live a m y : wf m -> select a m (ms_cells m) = Ok y -> live m refi0 y.
Proof.
  intros W H. destruct (select_in _ _ _ _ H) as (A & B). split; [apply B; apply W|]. intros p Hp. split; auto.
Qed.

(** The two halves of process_mesh. *)
Lemma process_split prep a m s' b : wf m -> process_mesh prep a (refi0, m) = Ok (s', b) ->
  exists l sE, select a m (ms_cells m) = Ok l /\ process_cells a l ((refi0, m), false) = Ok (sE, b) /\
    inrun (a_strong a) m sE /\
    s' = (with_done (a_strong a) (fst sE), if b then prep (snd sE) else snd sE).
Proof.
  intros W H. unfold process_mesh, assert_ in H. cbn [fst snd negb rf_init refi0] in H.
  bind_inv H. bind_inv H. injection H as <- <-. destruct v0 as [sE b]. exists v, sE. split; auto. split; auto.
  split; auto.
  pose proof (select_live _ _ _ W E) as L. pose proof (inrun_start (a_strong a) m W) as I.
  destruct (ext_process_cells m a v (refi0, m, false) (sE, b) W E0 (ir_ext _ _ _ I) L) as (X & _).
  eapply inrun_steps; eauto. apply (steps_cells _ _ _ _ E0).
Qed.

(** One sub-element. *)
Definition after_child (a : args) (c : cell) (sb : sub) (pos : bool) (conn : list nat) (s1 : state) : state :=
  let ty := child_type sb in let sd := child_sub a c ty pos in
  let m1 := snd (add_elem (snd s1) ty conn sd) in
  (with_elem (ms_fresh (snd s1)) (if pos then fst s1 else with_neg sd (fst s1)),
   if (0 <=? s_side sb)%Z then add_side m1 (ms_fresh (snd s1)) (Z.to_nat (s_side sb)) (a_bid a) else m1).
Lemma subs_cons a c r pos j t s s' : process_subs a c r pos (Some j :: t) s = Ok s' ->
  exists sb conn s1, nth_error (r_subs r) j = Some sb /\ child_nodes a c r pos (s_vert sb) s = Ok (conn, s1) /\
    process_subs a c r pos t (after_child a c sb pos conn s1) = Ok s' /\
    steps (a_strong a) s1 (after_child a c sb pos conn s1).
Proof.
  intros H. cbn [process_subs] in H. destruct (nth_error _ _) as [sb|]; [|discriminate]. bind_inv H.
  destruct v as [conn [r1 m1]]. exists sb, conn, (r1, m1). split; auto. split; auto. split; [exact H|].
  unfold after_child. cbv zeta. cbn [fst snd].
  set (sd := child_sub _ _ _ _). set (ty := child_type _).
  apply ss_trans with (with_elem (ms_fresh m1) (if pos then r1 else with_neg sd r1), snd (add_elem m1 ty conn sd)).
  + destruct pos; [apply ss_one, st_elem|]. econstructor; [apply (st_neg _ sd)|]. apply ss_one, st_elem.
  + cbn [add_elem snd]. destruct (_ <=? _)%Z; [apply ss_one; apply st_side|constructor].
Qed.

(** ** mesh_changed implies new elements *)
Lemma subs_new a c r pos j t s s' : sane (a_strong a) s -> process_subs a c r pos (Some j :: t) s = Ok s' -> rf_new_elems (fst s') <> [].
Proof.
  intros S H. destruct (subs_cons _ _ _ _ _ _ _ _ H) as (sb & conn & s1 & _ & C & P & ST).
  pose proof (sane_steps _ _ _ (steps_child _ _ _ _ _ _ _ C) S) as S1. cbn [snd] in S1.
  pose proof (sane_steps _ _ _ ST S1) as S2.
  pose proof (later_steps _ _ _ (steps_subs _ _ _ _ _ _ _ P) (proj2 S2)) as (_ & _ & L & _).
  intros E. specialize (L (ms_fresh (snd s1))). rewrite E in L. apply L. cbn. apply in_app_iff. right; left; auto.
Qed.
Lemma process_cell_new a m0 p s s' : wf m0 -> inrun (a_strong a) m0 (fst s) ->
  process_cell a p s = Ok s' -> snd s' = true -> snd s = true \/ rf_new_elems (fst (fst s')) <> [].
Proof.
  intros W I H T. unfold process_cell in H. destruct (find_cell _ _) as [c|]; [|discriminate]. bind_inv H.
  destruct (through (r_mode v)) eqn:TH.
  - right. bind_inv H. bind_inv H. injection H as <-. destruct (sh_pos _ (through_shape _ _ _ _ _ E TH)) as (j & t & P).
    rewrite P in E0. pose proof (subs_new _ _ _ _ _ _ _ _ (ir_sane _ _ _ I) E0) as N1.
    pose proof (sane_steps _ _ _ (steps_subs _ _ _ _ _ _ _ E0) (ir_sane _ _ _ I)) as S1.
    pose proof (later_steps _ _ _ (steps_subs _ _ _ _ _ _ _ E1) (proj2 S1)) as (_ & _ & L & _).
    cbn. intros Z. destruct (rf_new_elems (fst v0)) as [|q k]; [congruence|]. specialize (L q (or_introl eq_refl)).
    rewrite Z in L. destruct L.
  - left. destruct (touches v).
    + destruct (a_strong a); [bind_inv H|]; injection H as <-; auto.
    + destruct (r_onneg v); injection H as <-; auto.
Qed.
Lemma process_cells_new a m0 l : forall s s', wf m0 -> inrun (a_strong a) m0 (fst s) -> live m0 (fst (fst s)) l ->
  process_cells a l s = Ok s' -> snd s' = true -> snd s = true \/ rf_new_elems (fst (fst s')) <> [].
Proof.
  induction l as [|p l IH]; intros s s' W I L H T; cbn [process_cells] in H.
  - injection H as <-. auto.
  - bind_inv H. destruct (process_cell_inrun _ _ _ _ _ _ W I L E) as (I1 & L1).
    destruct (IH _ _ W I1 L1 H T) as [Q|Q]; auto.
    destruct (process_cell_new _ _ _ _ _ W I E Q) as [R|R]; auto. right.
    pose proof (later_steps _ _ _ (steps_cells _ _ _ _ H) (proj2 (ir_sane _ _ _ I1))) as (_ & _ & LA & _).
    intros Z. destruct (rf_new_elems (fst (fst v))) as [|q k]; [congruence|]. specialize (LA q (or_introl eq_refl)).
    rewrite Z in LA. destruct LA.
Qed.

(** ** Histories of process_mesh and clear_mesh *)
Lemma same_ptrs a b : same_mesh a b -> map nd_ptr (ms_nodes a) = map nd_ptr (ms_nodes b) /\ map ce_ptr (ms_cells a) = map ce_ptr (ms_cells b).
Proof.
  intros (A & B & _). split.
  - apply (f_equal (map fst)) in A. rewrite !map_map in A. exact A.
  - apply (f_equal (map (fun x => fst (fst (fst x))))) in B. rewrite !map_map in B. exact B.
Qed.
Lemma same_cell a b c : same_mesh a b -> In c (ms_cells a) -> exists c', In c' (ms_cells b) /\ cview c' = cview c.
Proof.
  intros (_ & B & _) H. apply (in_map cview) in H. change (map cview (ms_cells a) = map cview (ms_cells b)) in B.
  rewrite B in H. apply in_map_iff in H. destruct H as (c' & E & Hc). eauto.
Qed.
Lemma wf_same m0 m : wf m0 -> same_mesh m m0 -> ms_fresh m0 <= ms_fresh m -> NoDup (map nd_id (ms_nodes m)) -> wf m.
Proof.
  intros W S F N. destruct (same_ptrs _ _ S) as (P1 & P2). split; auto.
  - rewrite P1. apply W.
  - rewrite P2. apply W.
  - intros n Hn. apply (in_map nd_ptr) in Hn. rewrite P1 in Hn. apply in_map_iff in Hn. destruct Hn as (n' & <- & Hn).
    pose proof (wf_fresh_n _ W _ Hn). lia.
  - intros n Hn. apply (in_map ce_ptr) in Hn. rewrite P2 in Hn. apply in_map_iff in Hn. destruct Hn as (n' & <- & Hn).
    pose proof (wf_fresh_c _ W _ Hn). lia.
  - intros x Hx. destruct S as (_ & _ & S). rewrite S in Hx. pose proof (wf_sides _ W _ Hx). lia.
  - intros c Hc. destruct (same_cell _ _ _ S Hc) as (c' & H & V). unfold cview in V. injection V as V1 V2 V3 V4.
    rewrite <- V2, <- V3, P1. apply W; auto.
  - intros c Hc. destruct (same_cell _ _ _ S Hc) as (c' & H & V). unfold cview in V. injection V as V1 V2 V3 V4.
    rewrite <- V4. apply W; auto.
Qed.

(** Between calls: clean, or processed; [num] is what holds for the numbering of the mesh at rest. *)
Definition num (prep : mesh -> mesh) (m0 m : mesh) : Prop := canonical prep -> same_numbers (prep m0) m0 -> same_numbers m m0.
Lemma same_numbers_trans a b c : same_numbers a b -> same_numbers b c -> same_numbers a c.
Proof. intros (A & B) (C & D). split; congruence. Qed.
Definition rest (prep : mesh -> mesh) (m0 : mesh) (s : state) : Prop := fst s = refi0 /\ same_mesh (snd s) m0 /\ wf (snd s) /\ num prep m0 (snd s).
Definition busy (prep : mesh -> mesh) (m0 : mesh) (s : state) : Prop :=
  rf_init (fst s) = true /\ NoDup (map nd_id (ms_nodes (snd s))) /\ (rf_new_nodes (fst s) = [] -> rf_map (fst s) = []) /\
  exists m1, wf m1 /\ same_mesh m1 m0 /\ num prep m0 m1 /\ ext m1 (fst s) (snd s) /\
    (rf_new_elems (fst s) = [] -> rf_new_nodes (fst s) = [] -> same_numbers (snd s) m1).
Lemma numbers_step st s s' : step st s s' -> (rf_new_elems (fst s') = [] -> rf_new_nodes (fst s') = [] ->
   same_numbers (snd s') (snd s) /\ rf_new_elems (fst s) = [] /\ rf_new_nodes (fst s) = []).
Proof.
  destruct 1; cbn; auto.
  - destruct s as [r m], s' as [r' m']. destruct (add_node_inv _ _ _ _ _ _ _ _ _ _ H) as (_ & n1 & n2 & _ & _ & D). cbv zeta in D.
    destruct D as [(-> & -> & _)|(-> & -> & D & ->)]; cbn.
    + intros; repeat split; auto.
    + intros _ Z. destruct (rf_new_nodes r); discriminate.
  - intros; repeat split; auto.
  - intros; repeat split; auto.
  - intros Z. destruct (rf_new_elems r); discriminate.
  - intros; repeat split; auto.
  - intros; repeat split; auto; cbn. rewrite map_map. apply map_ext. intros c. destruct (_ =? _); auto.
Qed.
Lemma numbers_steps st s s' : steps st s s' -> (rf_new_elems (fst s') = [] -> rf_new_nodes (fst s') = [] -> same_numbers (snd s') (snd s)).
Proof.
  intros H A B. assert (G : same_numbers (snd s') (snd s) /\ rf_new_elems (fst s) = [] /\ rf_new_nodes (fst s) = []).
  { revert A B. induction H; [intros; repeat split; auto|]. intros A B. destruct (IHsteps A B) as ((N1 & N2) & C & D).
    destruct (numbers_step _ _ _ H C D) as ((N3 & N4) & C' & D'). repeat split; auto; congruence. }
  apply G.
Qed.

Lemma process_busy prep a m0 s s' b : renumbers prep -> rest prep m0 s -> process_mesh prep a s = Ok (s', b) -> busy prep m0 s'.
Proof.
  intros RN (A & B & C & NM) H. destruct s as [r m]. cbn [fst snd] in *. subst r.
  destruct (process_split _ _ _ _ _ C H) as (l & sE & S1 & S2 & I & ->).
  pose proof (ir_sane _ _ _ I) as (_ & M). split; [reflexivity|]. cbn [snd fst with_done rf_new_nodes rf_map rf_new_elems].
  split; [|split].
  - destruct b; [apply RN|]; apply M.
  - apply M.
  - exists m. split; auto. split; auto. split; auto. split.
    + assert (Y : ext m (with_done (a_strong a) (fst sE)) (snd sE)) by (eapply ext_refi; [apply I|..]; reflexivity).
      destruct b; auto. eapply same_ext; eauto; apply RN.
    + intros Z1 Z2. destruct b.
      * pose proof (select_live _ _ _ C S1) as L.
        destruct (process_cells_new a m l (refi0, m, false) (sE, true) C (inrun_start _ _ C) L S2 eq_refl) as [Q|Q]; [discriminate|].
        cbn [fst] in Q. congruence.
      * apply (numbers_steps _ _ _ (steps_cells _ _ _ _ S2) Z1 Z2).
Qed.

Lemma clear_rest prep m0 s : renumbers prep -> rest prep m0 s \/ busy prep m0 s ->
  exists m' b, clear_mesh prep s = Ok ((refi0, m'), b) /\ rest prep m0 (refi0, m').
Proof.
  intros RN H. destruct s as [r m].
  assert (Q : exists m1, wf m1 /\ same_mesh m1 m0 /\ num prep m0 m1 /\ ext m1 r m /\ NoDup (map nd_id (ms_nodes m)) /\
     (rf_new_nodes r = [] -> rf_map r = []) /\ (rf_new_elems r = [] -> rf_new_nodes r = [] -> same_numbers m m1)).
  { destruct H as [(A & B & C & D)|(A & ND & EM & m1 & W1 & S1 & NM & E & NU)]; cbn [fst snd] in *.
    - subst r. exists m. split; [|split; [|split; [|split; [|split; [|split]]]]]; auto.
      + apply ext_start; reflexivity.
      + apply C.
      + intros; split; auto.
    - exists m1. split; [|split; [|split; [|split; [|split; [|split]]]]]; auto. }
  clear H. destruct Q as (m1 & W1 & S1 & NM & E & ND & EM & NU).
  destruct (clear_ext prep m1 r m W1 E) as (m3 & r' & b & Q & S & F & R & Bb & NB & FE & ND3).
  exists (if b then prep m3 else m3), b.
  assert (RR : r' = refi0).
  { rewrite R. destruct b; auto. symmetry in Bb. apply negb_false_iff in Bb. apply andb_prop in Bb. destruct Bb as (_ & Bb).
    apply Nat.eqb_eq in Bb. destruct (rf_new_nodes r); [|discriminate]. rewrite (EM eq_refl). reflexivity. }
  rewrite Q, RR. split; [reflexivity|].
  assert (S3 : same_mesh m3 m0) by (eapply same_trans; eauto).
  split; [reflexivity|]. cbn [snd]. destruct b.
  * assert (SP : same_mesh (prep m3) m1) by (eapply same_trans; [apply RN|]; auto).
    split; [eapply same_trans; eauto|]. split.
    -- eapply wf_same; eauto. { rewrite (rn_fresh _ RN). lia. } apply RN. auto.
    -- intros CN P. eapply same_numbers_trans; [|exact P]. apply CN. auto.
  * split; auto. split; [eapply wf_same; eauto|].
    symmetry in Bb. apply negb_false_iff in Bb. apply andb_prop in Bb. destruct Bb as (B1 & B2).
    apply Nat.eqb_eq in B1. apply Nat.eqb_eq in B2. destruct (rf_new_nodes r); [|discriminate]. destruct (rf_new_elems r); [|discriminate].
    destruct (NU eq_refl eq_refl) as (U1 & U2). destruct (NB eq_refl) as (N1 & N2).
    intros CN P. destruct (NM CN P). split; congruence.
Qed.
Lemma calls_inv prep m0 l : forall s s', renumbers prep -> rest prep m0 s \/ busy prep m0 s -> do_calls prep l s = Ok s' ->
  rest prep m0 s' \/ busy prep m0 s'.
Proof.
  induction l as [|c t IH]; intros s s' RN H D; cbn [do_calls] in D.
  - injection D as <-. auto.
  - bind_inv D. destruct v as [s1 b]. cbn [fst] in D. apply (IH s1 s'); auto. destruct c as [a|]; cbn [do_call] in E.
    + right. destruct H as [H|H]; [eapply process_busy; eauto|]. destruct H as (I & _).
      unfold process_mesh, assert_ in E. rewrite I in E. discriminate.
    + left. destruct (clear_rest prep m0 s RN H) as (m' & b' & Q & R). rewrite Q in E. injection E as <- <-. auto.
Qed.
