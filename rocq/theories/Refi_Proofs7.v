From Coq Require Import List Arith NArith ZArith Lia Bool Reals Lra.
From Verif Require Import Base BaseLemmas RBool Filt_Model Filt_Proofs2 Isec_Model Isec_Spec Isec_Proofs Isec_Proofs2 Isec_Proofs3 Isec_Proofs4 Isec_Proofs5 Isec_Props Refi_Model Refi_Spec Refi_Proofs Refi_Proofs2 Refi_Proofs3 Refi_Proofs4 Refi_Proofs5 Refi_Proofs6.
Import ListNotations.
Open Scope nat_scope.

(** ** Subdomain ids of the original elements *)
Lemma subs_cells a c r pos l : forall s s', process_subs a c r pos l s = Ok s' -> exists nc, ms_cells (snd s') = ms_cells (snd s) ++ nc.
Proof.
  induction l as [|[j|] l IH]; intros s s' H.
  - cbn in H. injection H as <-. exists []. rewrite app_nil_r. auto.
  - destruct (subs_cons _ _ _ _ _ _ _ _ H) as (sb & conn & s1 & E & C & P & ST).
    destruct (child_nodes_cells _ _ _ _ _ _ _ C) as (K1 & _). cbn [snd] in K1.
    destruct (IH _ _ P) as (nc & N). unfold after_child in N. cbn in N.
    eexists. rewrite N. destruct (_ <=? _)%Z; cbn; rewrite K1, <- app_assoc; reflexivity.
  - cbn [process_subs] in H. destruct pos; [|discriminate]. eauto.
Qed.
Lemma negative_cells a c r s s' : process_negative a c r s = Ok s' -> exists nc, ms_cells (snd s') = ms_cells (snd s) ++ nc.
Proof.
  intros H. unfold process_negative in H. bind_inv H. bind_inv H. destruct v0 as [conn s1]. cbn [fst snd add_elem] in H.
  injection H as <-. destruct (copy_nodes_cells _ _ _ _ E0) as (K & _). cbn [snd fst] in K. cbn. rewrite K. eauto.
Qed.
Lemma find_cell_app m m' nc p c : ms_cells m' = ms_cells m ++ nc -> find_cell m p = Some c -> find_cell m' p = Some c.
Proof. intros E F. unfold find_cell in *. rewrite E. apply find_app_some. auto. Qed.
Lemma find_cell_retire c off s q : find_cell (snd (retire c off s)) q =
  option_map (sub_to (ce_ptr c) (sub16 (ce_sub c + off))) (find_cell (snd s) q).
Proof.
  unfold find_cell. cbn. change (map _ (ms_cells (snd s))) with (map (sub_to (ce_ptr c) (sub16 (ce_sub c + off))) (ms_cells (snd s))).
  induction (ms_cells (snd s)) as [|k l IH]; cbn [map find]; auto. rewrite sub_to_ptr. destruct (ce_ptr k =? q); auto.
Qed.

Definition new_sub (a : args) (r : result) (s : N) : N :=
  if through (r_mode r) then sub16 (s + a_in a)
  else if touches r then sub16 (s + if a_strong a then a_in a else a_neg a)
  else if r_onneg r then sub16 (s + a_neg a) else s.

Section Subs.
Variables (a : args) (m0 : mesh).
Hypothesis W : wf m0.
Definition moved (s : state) (c : cell) (r : result) : Prop :=
  find_cell (snd s) (ce_ptr c) = Some (mkCell (ce_ptr c) (ce_type c) (ce_conn c) (ce_id c) (new_sub a r (ce_sub c))).
Lemma cell_eta c : c = mkCell (ce_ptr c) (ce_type c) (ce_conn c) (ce_id c) (ce_sub c).
Proof. destruct c; auto. Qed.
Lemma cell_moved p l s s' : inrun (a_strong a) m0 (fst s) -> live m0 (fst (fst s)) (p :: l) -> process_cell a p s = Ok s' ->
  (forall q k, q <> p -> find_cell (snd (fst s)) q = Some k -> find_cell (snd (fst s')) q = Some k) /\
  exists c r0, In c (ms_cells m0) /\ ce_ptr c = p /\ isect a m0 c r0 /\ moved (fst s') c r0.
Proof.
  intros I L H.
  destruct (proj2 L p (or_introl eq_refl)) as (L1 & L2).
  destruct (inrun_cell _ _ _ _ W I L1 L2) as (c & C1 & C2 & C3 & C4 & C5).
  unfold process_cell in H. rewrite C3 in H. bind_inv H. rename v into r.
  rewrite C4 in E. destruct (init_ids _ _ _ _ (max_elem_id m0) (max_node_id m0) _ E) as (r0 & R0 & SR).
  pose proof SR as (SM & _ & SN & SP & SNG & _).
  assert (TT : touches r0 = touches r) by (unfold touches; rewrite SM, SNG; auto).
  assert (RT : forall off s1 nc, ms_cells (snd s1) = ms_cells (snd (fst s)) ++ nc ->
    (forall q k, q <> p -> find_cell (snd (fst s)) q = Some k -> find_cell (snd (retire c off s1)) q = Some k) /\
    find_cell (snd (retire c off s1)) (ce_ptr c) = Some (mkCell (ce_ptr c) (ce_type c) (ce_conn c) (ce_id c) (sub16 (ce_sub c + off)))).
  { intros off s1 nc EC. split.
    - intros q k Q F. rewrite find_cell_retire, (find_cell_app _ _ _ _ _ EC F). cbn. unfold sub_to.
      apply find_some in F. destruct F as (_ & F). rewrite (proj2 (Nat.eqb_neq _ _)); auto. congruence.
    - rewrite find_cell_retire. rewrite C2. rewrite (find_cell_app _ _ _ _ _ EC C3). cbn. unfold sub_to. rewrite <- C2, Nat.eqb_refl. auto. }
  assert (RM : forall off s1 nc, ms_cells (snd s1) = ms_cells (snd (fst s)) ++ nc -> new_sub a r0 (ce_sub c) = sub16 (ce_sub c + off) ->
    (forall q k, q <> p -> find_cell (snd (fst s)) q = Some k -> find_cell (snd (retire c off s1)) q = Some k) /\
    exists c' r', In c' (ms_cells m0) /\ ce_ptr c' = p /\ isect a m0 c' r' /\ moved (retire c off s1) c' r').
  { intros off s1 nc EC NS. destruct (RT off s1 nc EC) as (A & B). split; auto. exists c, r0. split; auto. split; auto. split; auto.
    unfold moved. rewrite NS. auto. }
  destruct (through (r_mode r)) eqn:TH.
  - bind_inv H. bind_inv H. injection H as <-. cbn [fst].
    destruct (subs_cells _ _ _ _ _ _ _ E0) as (n1 & N1). destruct (subs_cells _ _ _ _ _ _ _ E1) as (n2 & N2).
    rewrite N1, <- app_assoc in N2. apply (RM _ _ _ N2). unfold new_sub. rewrite <- SM, TH. auto.
  - destruct (touches r) eqn:TC.
    + destruct (a_strong a) eqn:SA.
      * bind_inv H. injection H as <-. cbn [fst]. destruct (negative_cells _ _ _ _ _ E0) as (n1 & N1).
        apply (RM _ _ _ N1). unfold new_sub. rewrite <- SM, TH, TT, SA. auto.
      * injection H as <-. cbn [fst]. apply (RM _ (fst s) []); [rewrite app_nil_r; auto|]. unfold new_sub. rewrite <- SM, TH, TT, SA. auto.
    + destruct (r_onneg r) eqn:ON.
      * injection H as <-. cbn [fst]. apply (RM _ (fst s) []); [rewrite app_nil_r; auto|]. unfold new_sub. rewrite <- SM, TH, TT, <- SN. auto.
      * injection H as <-. split; auto. exists c, r0. split; auto. split; auto. split; auto. unfold moved, new_sub.
        rewrite <- SM, TH, TT, <- SN, C2, C3. rewrite <- C2. f_equal. apply cell_eta.
Qed.
Lemma cells_moved l : forall s s', inrun (a_strong a) m0 (fst s) -> live m0 (fst (fst s)) l -> process_cells a l s = Ok s' ->
  (forall q k, ~ In q l -> find_cell (snd (fst s)) q = Some k -> find_cell (snd (fst s')) q = Some k) /\
  forall p, In p l -> exists c r0, In c (ms_cells m0) /\ ce_ptr c = p /\ isect a m0 c r0 /\ moved (fst s') c r0.
Proof.
  induction l as [|p l IH]; intros s s' I L H; cbn [process_cells] in H.
  - injection H as <-. split; auto. intros p [].
  - bind_inv H. destruct (process_cell_inrun _ _ _ _ _ _ W I L E) as (I1 & L1).
    destruct (cell_moved _ _ _ _ I L E) as (A & c & r0 & B1 & B2 & B3 & B4).
    destruct (IH _ _ I1 L1 H) as (C & D). pose proof (proj1 L) as ND. inversion ND; subst x l0.
    split.
    + intros q k Q F. cbn in Q. apply C; [tauto|]. apply A; auto.
    + intros q [<-|Hq]; auto. exists c, r0. split; auto. split; auto. split; auto. unfold moved in *. apply C; auto. rewrite B2; auto.
Qed.
Lemma select_sound c r l y : select a m0 l = Ok y -> In c l -> isect a m0 c r -> NoDup (map ce_ptr l) ->
  (In (ce_ptr c) y <-> selected r = true).
Proof.
  revert y. induction l as [|k l IH]; intros y H HI R ND; [destruct HI|]. cbn [select] in H. bind_inv H. bind_inv H. injection H as <-.
  cbn [map] in ND. inversion ND; subst. destruct HI as [->|HI].
  - unfold isect in R. rewrite R in E. injection E as <-.
    assert (NI : ~ In (ce_ptr c) v0). { intros K. apply H1. apply (proj1 (select_in _ _ _ _ E0)); auto. }
    destruct (selected r); [split; auto; left; auto|]. split; [tauto|discriminate].
  - rewrite <- (IH _ eq_refl HI R H2). destruct (selected v); [|tauto]. cbn. split; [|auto]. intros [Q|Q]; auto.
    exfalso. apply H1. rewrite Q. apply in_map; auto.
Qed.
End Subs.

(** The state before prepare_for_use, with everything known about it. *)
Lemma process_all prep a m s' b : renumbers prep -> wf m -> process_mesh prep a (refi0, m) = Ok (s', b) ->
  exists sE, good a m sE /\ newgood a m sE sE /\
    (forall c r, In c (ms_cells m) -> isect a m c r -> through (r_mode r) = true ->
       forall (d : bool) j, In (Some j) (if d then r_pos r else r_neg r) -> made_child a sE sE c r d j) /\
    (forall c r, In c (ms_cells m) -> isect a m c r -> moved a sE c r) /\ inits a m /\
    same_mesh (snd s') (snd sE) /\ fst s' = with_done (a_strong a) (fst sE) /\
    (b = true -> rf_new_elems (fst s') <> []) /\
    (a_strong a = true -> forall c r, In c (ms_cells m) -> isect a m c r -> touches r = true -> made_copy a sE sE c r).
Proof.
  intros RN W H. destruct (process_good _ _ _ _ _ W H) as (l & sE & S & P & G & ->).
  exists sE. split; auto. pose proof (select_live _ _ _ W S) as L. pose proof (inrun_start (a_strong a) m W) as I.
  destruct (cells_children a m sE W l ((refi0, m), false) (sE, b) I L P (later_refl _)) as (N1 & N2).
  { intros k _ []. }
  destruct (cells_moved a m W l ((refi0, m), false) (sE, b) I L P) as (M1 & M2). cbn [fst snd] in *.
  assert (IN : inits a m).
  { intros c Hc. clear - S Hc. revert l S. induction (ms_cells m) as [|k t IH]; intros l S; [destruct Hc|]. cbn [select] in S.
    bind_inv S. bind_inv S. destruct Hc as [->|Hc]; eauto. }
  assert (SAME : forall c c', In c (ms_cells m) -> In c' (ms_cells m) -> ce_ptr c = ce_ptr c' -> c = c').
  { intros c c' A B E. pose proof (find_in ce_ptr _ _ _ (wf_cells _ W) A eq_refl) as F1.
    pose proof (find_in ce_ptr _ _ _ (wf_cells _ W) B eq_refl) as F2. rewrite E in F1. congruence. }
  assert (SEL : forall c r, In c (ms_cells m) -> isect a m c r -> (In (ce_ptr c) l <-> selected r = true)).
  { intros c r Hc R. eapply select_sound; eauto. apply W. }
  split; auto. split; [|split; [|split; [|split; [|split; [|split]]]]]; auto.
  - intros c r Hc R TH d j Hj. assert (Q : In (ce_ptr c) l) by (apply (SEL c r); auto; unfold selected; rewrite TH; auto).
    destruct (N2 _ Q) as (c' & r' & A1 & A2 & A3 & A4). rewrite (SAME c' c A1 Hc A2) in *. unfold isect in *.
    rewrite R in A3. injection A3 as <-. apply A4; auto.
  - intros c r Hc R. destruct (selected r) eqn:SR.
    + destruct (M2 (ce_ptr c)) as (c' & r' & A1 & A2 & A3 & A4); [apply (SEL c r); auto|].
      rewrite (SAME c' c A1 Hc A2) in *. unfold isect in *. rewrite R in A3. injection A3 as <-. auto.
    + unfold moved. rewrite (M1 (ce_ptr c) c).
      * f_equal. unfold selected in SR. rewrite !orb_false_iff in SR. destruct SR as ((S1 & S2) & S3).
        unfold new_sub. rewrite S1, S2, S3. apply cell_eta.
      * intros Q. apply (SEL c r) in Q; auto. congruence.
      * apply (find_in ce_ptr); auto. apply W.
  - cbn [snd]. destruct b; [apply RN|]. apply same_refl.
  - intros ->. destruct (process_cells_new a m l ((refi0, m), false) (sE, true) W I L P eq_refl) as [Q|Q]; [discriminate|auto].
  - intros SA c r Hc R TC. assert (Q : In (ce_ptr c) l) by (apply (SEL c r); auto; unfold selected; rewrite TC; destruct (through _); auto).
    destruct (N2 _ Q) as (c' & r' & A1 & A2 & A3 & A4). rewrite (SAME c' c A1 Hc A2) in *. unfold isect in *.
    rewrite R in A3. injection A3 as <-. apply A4; auto.
Qed.
