From Coq Require Import List Arith Lia Bool.
From Verif Require Import Base Disc_Model Disc_Spec.
Import ListNotations.

Lemma loads_app m1 m2 id : loads_of (m1 ++ m2) id = loads_of m1 id ++ loads_of m2 id.
Proof. unfold loads_of. now rewrite filter_app, map_app. Qed.

Lemma loads_erase m i l id :
  loads_of (erase_first m i l) id = if i =? id then remove_one (loads_of m id) l else loads_of m id.
Proof.
  induction m as [|[a b] t IH]; unfold loads_of in *; simpl.
  - now destruct (i =? id).
  - destruct (Nat.eqb_spec a i) as [->|Hai]; simpl.
    + destruct (Nat.eqb_spec b l) as [->|Hbl]; simpl.
      * destruct (Nat.eqb_spec i id) as [->|]; simpl; auto. now rewrite Nat.eqb_refl.
      * destruct (Nat.eqb_spec i id) as [->|]; simpl; auto.
        destruct (Nat.eqb_spec b l); [congruence|]. now rewrite IH.
    + destruct (Nat.eqb_spec a id) as [->|]; simpl; auto.
      destruct (Nat.eqb_spec i id) as [->|]; [congruence|]. now rewrite IH.
Qed.

Lemma has_loads m id l : has m id l = true <-> In l (loads_of m id).
Proof.
  unfold has, loads_of. rewrite existsb_exists, in_map_iff. split.
  - intros ([a b] & Hin & E). simpl in E. apply andb_true_iff in E as [E1 E2].
    apply Nat.eqb_eq in E1, E2; subst. exists (id, l); split; auto. apply filter_In; split; auto. apply Nat.eqb_refl.
  - intros ([a b] & E & Hin). simpl in E; subst. apply filter_In in Hin as [Hin E]; simpl in E.
    exists (a, l); split; auto. simpl. rewrite E. simpl. apply Nat.eqb_refl.
Qed.

Lemma step_side debug d o d' id : dstep debug d o = Ok d' ->
  loads_of (side d') id = side_replay id (loads_of (side d) id) o.
Proof.
  destruct o; simpl; unfold when_debug, assert_; intros H;
  repeat match type of H with (if ?b then _ else _) = _ => destruct b; try discriminate end;
  inversion H; subst; simpl; auto; try apply loads_erase.
  all: rewrite loads_app; unfold loads_of at 2; simpl; destruct (id0 =? id); simpl; auto; now rewrite app_nil_r.
Qed.
Lemma step_vol debug d o d' id : dstep debug d o = Ok d' ->
  loads_of (vol d') id = vol_replay id (loads_of (vol d) id) o.
Proof.
  destruct o; simpl; unfold when_debug, assert_; intros H;
  repeat match type of H with (if ?b then _ else _) = _ => destruct b; try discriminate end;
  inversion H; subst; simpl; auto; try apply loads_erase.
  all: rewrite loads_app; unfold loads_of at 2; simpl; destruct (id0 =? id); simpl; auto; now rewrite app_nil_r.
Qed.
Lemma step_card debug d o d' sid : dstep debug d o = Ok d' ->
  assoc (cards d') sid = card_replay sid (assoc (cards d) sid) o.
Proof.
  destruct o; simpl; unfold when_debug, assert_; intros H;
  repeat match type of H with (if ?b then _ else _) = _ => destruct b; try discriminate end;
  inversion H; subst; simpl; auto.
  all: unfold assoc; simpl; destruct (Nat.eqb_spec sid0 sid); auto.
Qed.

Lemma run_refines debug ops : forall d d', drun debug d ops = Ok d' -> forall id,
  loads_of (side d') id = fold_left (side_replay id) ops (loads_of (side d) id) /\
  loads_of (vol d') id = fold_left (vol_replay id) ops (loads_of (vol d) id) /\
  assoc (cards d') id = fold_left (card_replay id) ops (assoc (cards d) id).
Proof.
  induction ops as [|o t IH]; intros d d' H id; simpl in *.
  - inversion H; auto.
  - destruct (dstep debug d o) as [d1|] eqn:E; simpl in H; [|discriminate].
    destruct (IH _ _ H id) as (A & B & C).
    rewrite (step_side _ _ _ _ id E) in A. rewrite (step_vol _ _ _ _ id E) in B.
    rewrite (step_card _ _ _ _ id E) in C. auto.
Qed.

Lemma release_total ops : forall d, exists d', drun false d ops = Ok d'.
Proof.
  induction ops as [|o t IH]; intros d; simpl; eauto.
  assert (exists d1, dstep false d o = Ok d1) as (d1 & E) by (destruct o; simpl; eauto).
  rewrite E; simpl; auto.
Qed.

(** the debug build rejects exactly the misuse *)
Lemma debug_misuse_side h d id l : drun true disc0 h = Ok d ->
  (dstep true d (AddSide id l) = Fault AssertFailed <-> In l (side_now h id)).
Proof.
  intros H. destruct (run_refines _ _ _ _ H id) as (A & _). simpl in A.
  unfold side_now. change (loads_of [] id) with (@nil nat) in A. rewrite <- A, <- has_loads.
  simpl; unfold assert_. destruct (has (side d) id l); simpl; split; auto; discriminate.
Qed.
Lemma debug_misuse_vol h d id l : drun true disc0 h = Ok d ->
  (dstep true d (AddVol id l) = Fault AssertFailed <-> In l (vol_now h id)) /\
  (dstep true d (ClearVol id l) = Fault AssertFailed <-> ~ In l (vol_now h id)).
Proof.
  intros H. destruct (run_refines _ _ _ _ H id) as (_ & A & _). simpl in A.
  unfold vol_now. change (loads_of [] id) with (@nil nat) in A. rewrite <- A, <- has_loads.
  simpl; unfold assert_. destruct (has (vol d) id l); simpl; split; split; auto; try discriminate; congruence.
Qed.

Lemma remove_absent l x : ~ In x l -> remove_one l x = l.
Proof.
  induction l as [|y t IH]; simpl; intros H; auto.
  destruct (Nat.eqb_spec y x); [exfalso; auto|]. rewrite IH; tauto.
Qed.
Lemma remove_count l x y : count_occ Nat.eq_dec (remove_one l x) y =
  count_occ Nat.eq_dec l y - (if x =? y then 1 else 0).
Proof.
  induction l as [|z t IH]; simpl; [lia|].
  destruct (Nat.eqb_spec z x) as [->|Hzx].
  - destruct (Nat.eq_dec x y), (Nat.eqb_spec x y); subst; try congruence; lia.
  - simpl. destruct (Nat.eq_dec z y) as [->|]; rewrite IH; auto.
    destruct (Nat.eqb_spec x y); [congruence|lia].
Qed.

(** point loads are untouched by clear_loads *)
Lemma clear_keeps_points debug d d' : dstep debug d ClearLoads = Ok d' ->
  points d' = points d /\ (forall id, loads_of (side d') id = [] /\ loads_of (vol d') id = []).
Proof. simpl; intros H; inversion H; auto. Qed.

(** ** constrained dofs *)
Lemma insert_side_in di ks : forall acc acc', insert_side di ks acc = Ok acc' ->
  forall d, In d acc' <-> In d acc \/ exists k, In k ks /\ nth_error di k = Some d.
Proof.
  induction ks as [|k t IH]; simpl; intros acc acc' H d.
  - inversion H; subst. split; auto. intros [?|(k & [] & _)]; auto.
  - destruct (nth_error di k) as [x|] eqn:E; [|discriminate].
    rewrite (IH _ _ H d). simpl. split.
    + intros [[->|?]|(k' & A & B)]; auto; right; [exists k|exists k']; auto.
    + intros [?|(k' & [->|A] & B)]; auto.
      * left; left; congruence.
      * right; exists k'; auto.
Qed.

Lemma fold_in {A} (f : list nat -> A -> outcome (list nat)) (Q : A -> nat -> Prop) l :
  forall acc acc', fold_ f l acc = Ok acc' -> forall d,
  (forall x acc acc', In x l -> f acc x = Ok acc' -> forall d, In d acc' <-> In d acc \/ Q x d) ->
  (In d acc' <-> In d acc \/ exists x, In x l /\ Q x d).
Proof.
  induction l as [|x t IH]; simpl; intros acc acc' H d Hf.
  - inversion H; subst. split; auto. intros [?|(x & [] & _)]; auto.
  - destruct (f acc x) as [a1|] eqn:E; simpl in H; [|discriminate].
    rewrite (IH _ _ H d ltac:(intros; eapply Hf; eauto)), (Hf x acc a1 (or_introl eq_refl) E d).
    split.
    + intros [[?|?]|(y & B & C)]; auto; right; [exists x|exists y]; auto.
    + intros [?|(y & [->|B] & C)]; auto. right; exists y; auto.
Qed.

Lemma sub_in e l : forall acc d, In d (fold_left (fun a v => dof_indices e v ++ a) l acc) <->
  In d acc \/ exists v, In v l /\ In d (dof_indices e v).
Proof.
  induction l as [|v t IH]; simpl; intros acc d.
  - split; auto. intros [?|(v & [] & _)]; auto.
  - rewrite IH, in_app_iff. split.
    + intros [[?|?]|(w & A & B)]; auto; right; [exists v|exists w]; auto.
    + intros [?|(w & [->|A] & B)]; auto. right; exists w; auto.
Qed.

Lemma side_step_in bc e s : forall acc acc', side_step bc e acc s = Ok acc' ->
  forall d, In d acc' <-> In d acc \/ (neighbor s = false /\ exists b vars v k, In b (bids s) /\
     bc b = Some vars /\ In v vars /\ In k (side_dofs0 s) /\ nth_error (dof_indices e v) k = Some d).
Proof.
  unfold side_step. intros acc acc' H d. destruct (neighbor s); simpl in H.
  - inversion H; subst. split; auto. intros [?|[? _]]; auto; discriminate.
  - rewrite (fold_in _ (fun b d => exists vars v k, bc b = Some vars /\ In v vars /\ In k (side_dofs0 s) /\
        nth_error (dof_indices e v) k = Some d) _ _ _ H d).
    + split.
      * intros [?|(b & A & vars & v & k & B)]; auto. right; split; auto. exists b, vars, v, k; tauto.
      * intros [?|(_ & b & vars & v & k & A & B)]; auto. right; exists b; split; auto. exists vars, v, k; tauto.
    + intros b a a' _ E d'. destruct (bc b) as [vars|] eqn:Eb.
      * rewrite (fold_in _ (fun v d => exists k, In k (side_dofs0 s) /\ nth_error (dof_indices e v) k = Some d)
                  _ _ _ E d' ltac:(intros; eapply insert_side_in; eauto)).
        split.
        -- intros [?|(v & A & k & B)]; auto. right; exists vars, v, k; tauto.
        -- intros [?|(vars' & v & k & A & B & C)]; auto. right. assert (vars' = vars) by congruence; subst.
           exists v; split; auto. exists k; auto.
      * inversion E; subst. split; auto. intros [?|(vars & v & k & A & _)]; auto; discriminate.
Qed.

Lemma dirichlet_dofs_in bc sub elems rows acc : dirichlet_dofs bc sub elems rows = Ok acc ->
  forall d, In d acc <-> constrained bc sub elems rows d.
Proof.
  unfold dirichlet_dofs. destruct (fold_ (elem_step bc sub) elems []) as [a|] eqn:E; simpl; [|discriminate].
  intros H d; inversion H; subst; clear H. rewrite in_app_iff, in_map_iff.
  rewrite (fold_in _ (fun e d => (exists v, In v (sub (subdomain e)) /\ In d (dof_indices e v)) \/
      exists s, In s (sides e) /\ (neighbor s = false /\ exists b vars v k, In b (bids s) /\
     bc b = Some vars /\ In v vars /\ In k (side_dofs0 s) /\ nth_error (dof_indices e v) k = Some d)) _ _ _ E d).
  - unfold constrained. simpl. split.
    + intros [([d' n] & Heq & Hf)|[[]|(e & He & [(v & A)|(s & A & B & b & vars & v & k & C)])]].
      * apply filter_In in Hf as [Hf Hz]. simpl in *. apply Nat.eqb_eq in Hz; subst; auto.
      * left; exists e, v; tauto.
      * right; left; exists e, s, b, vars, v, k; tauto.
    + intros [(e & v & A)|[(e & s & b & vars & v & k & A)|A]].
      * right; right; exists e; split; [tauto|]. left; exists v; tauto.
      * right; right; exists e; split; [tauto|]. right; exists s; split; [tauto|]. split; [tauto|].
        exists b, vars, v, k; tauto.
      * left; exists (d, 0); split; auto. apply filter_In; auto.
  - intros e a0 a1 _ E1 d'. unfold elem_step in E1.
    rewrite (fold_in _ (fun s d => neighbor s = false /\ exists b vars v k, In b (bids s) /\
     bc b = Some vars /\ In v vars /\ In k (side_dofs0 s) /\ nth_error (dof_indices e v) k = Some d)
       _ _ _ E1 d' ltac:(intros; eapply side_step_in; eauto)), sub_in. tauto.
Qed.

Lemma insert_side_ok di ks : (forall k, In k ks -> k < length di) -> forall acc, exists a, insert_side di ks acc = Ok a.
Proof.
  induction ks as [|k t IH]; intros H acc; simpl; eauto.
  destruct (nth_error di k) eqn:E; [apply IH; intros; apply H; simpl; auto|].
  apply nth_error_None in E. specialize (H k (or_introl eq_refl)). lia.
Qed.
Lemma fold_ok {A S} (f : S -> A -> outcome S) l :
  (forall x s, In x l -> exists s', f s x = Ok s') -> forall s, exists s', fold_ f l s = Ok s'.
Proof.
  induction l as [|x t IH]; intros H s; simpl; eauto.
  destruct (H x s (or_introl eq_refl)) as (s' & E). rewrite E; simpl. apply IH; intros; apply H; simpl; auto.
Qed.
Lemma dirichlet_dofs_ok bc sub elems rows :
  (forall e s v k, In e elems -> In s (sides e) -> In k (side_dofs0 s) -> k < length (dof_indices e v)) ->
  exists acc, dirichlet_dofs bc sub elems rows = Ok acc.
Proof.
  intros H. unfold dirichlet_dofs.
  destruct (fold_ok (elem_step bc sub) elems) with (s := @nil nat) as (a & E).
  - intros e acc He. unfold elem_step. apply fold_ok. intros s acc' Hs. unfold side_step.
    destruct (neighbor s); simpl; eauto. apply fold_ok. intros b acc2 Hb. destruct (bc b); eauto.
    apply fold_ok. intros v acc3 Hv. apply insert_side_ok. intros k Hk. eapply H; eauto.
  - rewrite E; simpl; eauto.
Qed.
