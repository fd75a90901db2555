From Coq Require Import String List Arith Lia Reals Lra Bool Relations.
From Verif Require Import Base BaseLemmas Func_Model Func_Spec.
Import ListNotations.
Open Scope nat_scope.

Lemma any_ok {A} (test : A -> outcome bool) (P : A -> Prop) l :
  (forall x, In x l -> exists b, test x = Ok b /\ (b = true <-> P x)) ->
  exists b, any_ test l = Ok b /\ (b = true <-> exists x, In x l /\ P x).
Proof.
  induction l as [|x t IH]; intros H; simpl.
  - exists false; split; auto. split; [discriminate|intros (x & [] & _)].
  - destruct (H x) as (b & E & Hb); [left; auto|]. rewrite E; simpl. destruct b.
    + exists true; split; auto. split; auto. intros _. exists x; split; auto. now apply Hb.
    + destruct IH as (b' & E' & Hb'); [intros; apply H; right; auto|].
      exists b'; split; auto. rewrite Hb'. split.
      * intros (y & Hy & Py); exists y; auto.
      * intros (y & [->|Hy] & Py); [|exists y; auto]. apply Hb in Py; discriminate.
Qed.

Lemma no_edge_param g c x : g c = KParameter -> ~ clos_trans nat (registered g) c x.
Proof.
  intros Hc H. apply clos_trans_t1n in H. inversion H as [y (d & E & _)|y z (d & E & _) _]; congruence.
Qed.
Lemma no_edge_always g c x : g c = KAlways -> ~ clos_trans nat (registered g) c x.
Proof.
  intros Hc H. apply clos_trans_t1n in H. inversion H as [y (d & E & _)|y z (d & E & _) _]; congruence.
Qed.

Lemma truly_field g n deps f : g n = KField deps ->
  (truly_depends g n f <-> In f deps \/ exists c, In c deps /\ truly_depends g c f).
Proof.
  intros Hn. unfold truly_depends at 1. rewrite Hn. split.
  - intros [H|(m & H & Hm)].
    + apply clos_trans_t1n in H. inversion H as [y (d & E & Hy)|y z (d & E & Hy) Hyz]; subst.
      * left; congruence.
      * right. exists y. split; [congruence|]. apply clos_t1n_trans in Hyz.
        unfold truly_depends. destruct (g y) eqn:Ey.
        -- exfalso; eapply no_edge_param; eauto.
        -- left; auto.
        -- auto.
    + apply clos_trans_t1n in H. inversion H as [y (d & E & Hy)|y z (d & E & Hy) Hyz]; subst.
      * right. exists m; split; [congruence|]. unfold truly_depends; now rewrite Hm.
      * right. exists y; split; [congruence|]. apply clos_t1n_trans in Hyz.
        unfold truly_depends. destruct (g y) eqn:Ey; auto.
        -- exfalso; eapply no_edge_param; eauto.
        -- right; exists m; auto.
  - intros [H|(c & Hc & Ht)].
    + left; apply t_step; exists deps; auto.
    + unfold truly_depends in Ht. destruct (g c) eqn:Ec.
      * subst f. left; apply t_step; exists deps; auto.
      * assert (S1 : clos_trans nat (registered g) n c) by (apply t_step; exists deps; auto).
        destruct Ht as [Ht|(m & Ht & Hm)]; [left|right; exists m; split; auto]; eapply t_trans; eauto.
      * right. exists c; split; auto. apply t_step; exists deps; auto.
Qed.

Lemma depends_on_ok g rank : ranked g rank -> forall fuel n f, rank n < fuel ->
  exists b, depends_on fuel g n f = Ok b /\ (b = true <-> truly_depends g n f).
Proof.
  intros Hr. induction fuel as [|k IH]; intros n f Hn; [lia|]. simpl.
  destruct (g n) as [|deps|] eqn:En.
  - exists (f =? n); split; auto. unfold truly_depends; rewrite En. apply Nat.eqb_eq.
  - destruct (existsb (Nat.eqb f) deps) eqn:Ex.
    + exists true; split; auto. split; auto. intros _. apply (truly_field g n deps f En). left.
      apply existsb_exists in Ex as (x & Hx & Ee). apply Nat.eqb_eq in Ee; now subst.
    + destruct (any_ok (fun c => depends_on k g c f) (fun c => truly_depends g c f) deps) as (b & E & Hb).
      { intros c Hc. apply IH. assert (rank c < rank n) by (apply Hr; exists deps; auto). lia. }
      exists b; split; auto. rewrite Hb, (truly_field g n deps f En). split; [auto|].
      intros [Hin|H]; auto. exfalso.
      assert (existsb (Nat.eqb f) deps = true) by (apply existsb_exists; exists f; split; auto; apply Nat.eqb_refl).
      congruence.
  - exists true; split; auto. unfold truly_depends; rewrite En. tauto.
Qed.

Lemma cycle_diverges : exists g n f, forall fuel, depends_on fuel g n f = Fault OutOfFuel.
Proof.
  exists (fun n => if n =? 0 then KField [0] else KParameter), 0, 1.
  induction fuel as [|k IH]; [reflexivity|]. simpl. simpl in IH. rewrite IH. reflexivity.
Qed.

(** ** constant field function *)
Lemma cff_derivative_ok (st : store) p f :
  derivable_pt_lim (fun x => cff_value (param_assign st f x) p) (st f) (cff_derivative p f).
Proof.
  unfold cff_value, param_assign, cff_derivative, upd.
  destruct (Nat.eqb_spec p f) as [->|Hne].
  - rewrite Nat.eqb_refl. intros eps He. exists (mkposreal _ Rlt_0_1). intros h Hh _.
    replace ((st f + h - st f) / h - 1)%R with 0%R by (field; auto). now rewrite Rabs_R0.
  - destruct (Nat.eqb_spec f p) as [E|_]; [congruence|]. apply derivable_pt_lim_const.
Qed.

Lemma cff_history l : forall (st : store) p,
  cff_value (fold_left (fun s a => param_assign s (fst a) (snd a)) l st) p = last_assign l p (st p).
Proof.
  induction l as [|[q v] t IH]; intros st p; simpl; [reflexivity|].
  rewrite IH. f_equal. unfold param_assign, upd. simpl. now rewrite (Nat.eqb_sym p q).
Qed.

(** ** cards *)
Lemma set_depends_ok g rank fuel c f : ranked g rank ->
  (forall nm n, In (nm, n) c -> rank n < fuel) ->
  exists b, set_depends_on fuel g c f = Ok b /\
    (b = true <-> exists nm n, In (nm, n) c /\ truly_depends g n f).
Proof.
  intros Hr Hc. unfold set_depends_on.
  destruct (any_ok (fun nf : string * nat => depends_on fuel g (snd nf) f)
             (fun nf => truly_depends g (snd nf) f) c) as (b & E & Hb).
  { intros [nm n] Hin. apply (depends_on_ok g rank); auto. simpl; eauto. }
  exists b; split; auto. rewrite Hb. split.
  - intros ([nm n] & H1 & H2); eauto.
  - intros (nm & n & H1 & H2); exists (nm, n); auto.
Qed.

Section CardInd.
  Variable P : card -> Prop.
  Hypothesis Hb : forall c, P (CBase c).
  Hypothesis Hs : forall m c, P m -> P (CSolid m c).
  Hypothesis Hm : forall ls offs c, Forall P ls -> P (CMulti ls offs c).
  Fixpoint card_ind2 (k : card) : P k :=
    match k with
    | CBase c => Hb c
    | CSolid m c => Hs m c (card_ind2 m)
    | CMulti ls offs c =>
        Hm ls offs c ((fix go l : Forall P l :=
          match l with [] => Forall_nil _ | x :: t => Forall_cons x (card_ind2 x) (go t) end) ls)
    end.
End CardInd.

Lemma card_depends_ok g rank fuel : ranked g rank -> forall k f,
  (forall n, card_fn_seen k n -> rank n < fuel) ->
  exists b, card_depends_on fuel g k f = Ok b /\
    (b = true <-> exists n, card_fn_seen k n /\ truly_depends g n f).
Proof.
  intros Hr k. induction k as [c|m c IH|ls offs c IH] using card_ind2; intros f Hk; simpl.
  - destruct (set_depends_ok g rank fuel c f Hr) as (b & E & Hb).
    { intros nm n H; apply Hk; econstructor; eauto. }
    exists b; split; auto. rewrite Hb. split.
    + intros (nm & n & H1 & H2); exists n; split; auto; econstructor; eauto.
    + intros (n & H1 & H2). inversion H1; subst; eauto.
  - destruct (IH f) as (b1 & E1 & H1). { intros n H; apply Hk; now constructor. }
    rewrite E1; simpl.
    destruct (set_depends_ok g rank fuel c f Hr) as (b & E & Hb).
    { intros nm n H; apply Hk; eapply cs_solid_c; eauto. }
    assert (Hiff : (exists n, card_fn_seen (CSolid m c) n /\ truly_depends g n f) <-> b1 = true \/ b = true).
    { rewrite H1, Hb. split.
      - intros (n & A & B). inversion A; subst; [left|right]; eauto.
      - intros [(n & A & B)|(nm & n & A & B)]; exists n; split; auto; [now apply cs_solid_m|eapply cs_solid_c; eauto]. }
    destruct b1.
    + exists true; split; auto. rewrite Hiff. tauto.
    + exists b; split; auto. rewrite Hiff. intuition discriminate.
  - set (go := fix go l := match l with
                        | [] => Ok false
                        | x :: t => b <- card_depends_on fuel g x f ;; if b then Ok true else go t
                        end).
    assert (G : exists b, go ls = Ok b /\ (b = true <-> exists k n, In k ls /\ card_fn_seen k n /\ truly_depends g n f)).
    { assert (Hl : forall k n, In k ls -> card_fn_seen k n -> rank n < fuel).
      { intros k n A B. apply Hk. eapply cs_multi_l; eauto. }
      clear Hk. induction IH as [|x t Hx Ht IHt]; simpl.
      - exists false; split; auto. split; [discriminate|]. intros (k & n & [] & _).
      - destruct (Hx f) as (b1 & E1 & H1); [intros; eapply Hl; simpl; eauto|]. rewrite E1; simpl.
        destruct IHt as (b2 & E2 & H2); [intros; eapply Hl; simpl; eauto|].
        destruct b1.
        + exists true; split; auto. split; auto. intros _. destruct (proj1 H1 eq_refl) as (n & A & B).
          exists x, n; auto.
        + exists b2; split; auto. rewrite H2. split.
          * intros (k & n & A & B); exists k, n; auto.
          * intros (k & n & [->|A] & B & C); [|exists k, n; auto].
            assert (false = true) by (apply H1; eauto). discriminate. }
    destruct G as (b1 & E1 & H1). rewrite E1; simpl.
    destruct (any_ok (fun o => depends_on fuel g o f) (fun o => truly_depends g o f) offs) as (b & E & Hb).
    { intros o Ho. apply (depends_on_ok g rank); auto. apply Hk. now apply cs_multi_o. }
    assert (Hiff : (exists n, card_fn_seen (CMulti ls offs c) n /\ truly_depends g n f) <-> b1 = true \/ b = true).
    { rewrite H1, Hb. split.
      - intros (n & A & B). inversion A; subst; [left|right]; eauto.
      - intros [(k & n & A & B & C)|(n & A & B)]; exists n; split; auto; [eapply cs_multi_l; eauto|now apply cs_multi_o]. }
    destruct b1.
    + exists true; split; auto. rewrite Hiff. tauto.
    + exists b; split; auto. rewrite Hiff. intuition discriminate.
Qed.

Lemma own_field_refuted : exists g k f, (exists rank, ranked g rank) /\ card_fn k f /\
  forall fuel, card_depends_on (S fuel) g k f = Ok false.
Proof.
  exists (fun _ => KField []), (CBase [("E"%string, 0)]), 0. repeat split.
  - exists (fun _ => 0). intros a b (d & E & H). inversion E; subst; destruct H.
  - econstructor; left; eauto.
Qed.

Lemma multilayer_own_refuted : exists g k n f, (exists rank, ranked g rank) /\ card_fn k n /\ truly_depends g n f /\
  forall fuel, card_depends_on fuel g k f = Ok false.
Proof.
  exists (fun _ => KParameter), (CMulti [] [] [("th"%string, 0)]), 0, 0. repeat split.
  - exists (fun _ => 0). intros a b (d & E & H). inversion E.
  - eapply cf_multi_c; left; eauto.
Qed.

(** add / get *)

Lemma contains_lookup c nm : contains c nm = true <-> exists f, lookup c nm = Some f.
Proof.
  unfold contains. destruct (lookup c nm); split; eauto; try discriminate. intros (f & H); discriminate.
Qed.

Lemma add_all_spec l : forall c c', add_all c l = Ok c' -> forall nm,
  lookup c' nm = match lookup c nm with Some f => Some f | None => lookup l nm end.
Proof.
  induction l as [|[k f] t IH]; intros c c' H nm; simpl in *.
  - inversion H; subst. now destruct (lookup c' nm).
  - unfold add, assert_ in H. destruct (contains c k) eqn:Ec; simpl in H; [discriminate|].
    rewrite (IH _ _ H nm). simpl.
    destruct (String.eqb_spec k nm) as [->|Hne].
    + unfold contains in Ec. destruct (lookup c nm); [discriminate|reflexivity].
    + reflexivity.
Qed.

Lemma add_all_nodup l : forall c, (forall nm, contains c nm = true -> ~ In nm (map fst l)) ->
  (NoDup (map fst l) <-> exists c', add_all c l = Ok c').
Proof.
  induction l as [|[k f] t IH]; intros c Hc; simpl.
  - split; [eauto|constructor].
  - unfold add, assert_. destruct (contains c k) eqn:Ec; simpl.
    + exfalso. apply (Hc k Ec). left; auto.
    + assert (Hmap : forall nm, contains ((k, f) :: c) nm = true -> ~ In k (map fst t) -> ~ In nm (map fst t)).
      { intros nm H Hk. unfold contains in H; simpl in H. destruct (String.eqb_spec k nm) as [->|Hne]; auto.
        intros Hin. apply (Hc nm); [exact H|]. right; auto. }
      split.
      * intros Hnd. inversion Hnd as [|? ? Hk Hnd']; subst.
        apply (IH ((k, f) :: c)); auto.
      * intros (c' & E).
        assert (Hk : ~ In k (map fst t)).
        { clear -E. assert (Hin : contains ((k, f) :: c) k = true) by (unfold contains; simpl; now rewrite String.eqb_refl).
          revert E Hin. generalize ((k,f)::c) as c0. induction t as [|[q v] t IH]; intros c0 E Hin; simpl in *; [tauto|].
          unfold add, assert_ in E. destruct (contains c0 q) eqn:Eq; simpl in E; [discriminate|].
          intros [->|Hq]; [congruence|]. apply (IH _ E); auto.
          unfold contains; simpl. destruct (String.eqb_spec q k); auto. }
        constructor; auto. apply (IH ((k, f) :: c)); eauto.
Qed.

Lemma lookup_in l nm f : NoDup (map fst l) -> (lookup l nm = Some f <-> In (nm, f) l).
Proof.
  induction l as [|[k v] t IH]; intros Hn; simpl.
  - split; [discriminate|tauto].
  - inversion Hn as [|? ? Hk Hn']; subst. destruct (String.eqb_spec k nm) as [->|Hne].
    + split.
      * intros E; inversion E; auto.
      * intros [E|H]; [inversion E; auto|]. exfalso; apply Hk. apply in_map_iff; exists (nm, f); auto.
    + rewrite IH by auto. split; auto. intros [E|H]; auto. inversion E; congruence.
Qed.

Lemma card_add_get l : NoDup (map fst l) ->
  exists c, add_all [] l = Ok c /\
    (forall nm f, In (nm, f) l -> get_prop c nm = Ok f /\ contains c nm = true) /\
    (forall nm, ~ In nm (map fst l) -> get_prop c nm = Fault LibError /\ contains c nm = false).
Proof.
  intros Hn. destruct (proj1 (add_all_nodup l [] ltac:(intros nm H; discriminate)) Hn) as (c & E).
  exists c; split; auto. pose proof (add_all_spec _ _ _ E) as Hs; simpl in Hs.
  split.
  - intros nm f H. apply lookup_in in H; auto. unfold get_prop, contains. rewrite Hs, H. auto.
  - intros nm H. unfold get_prop, contains. rewrite Hs. destruct (lookup l nm) as [f|] eqn:El; auto.
    exfalso; apply H. apply lookup_in in El; auto. apply in_map_iff; exists (nm, f); auto.
Qed.

(** ** Parameter objects *)
Lemma lset_length {A} (l : list A) i x : length (lset l i x) = length l.
Proof. revert i; induction l; intros [|i]; simpl; auto. Qed.
Lemma lset_nth {A} (l : list A) i x j :
  nth_error (lset l i x) j = if (j =? i) && (i <? length l) then Some x else nth_error l j.
Proof.
  revert i j; induction l as [|y t IH]; intros [|i] [|j]; simpl; auto.
  - now rewrite andb_false_r.
  - rewrite IH. reflexivity.
Qed.

Lemma double_free : prun pempty [PNew 1%R; PCopy 0; PDestroy 0; PDestroy 1] = Fault DoubleFree.
Proof. reflexivity. Qed.
Lemma use_after_free : prun pempty [PNew 1%R; PCopy 0; PDestroy 1; PRead 0] = Fault UseAfterFree.
Proof. reflexivity. Qed.

(** without copies: object o owns cell o *)
Definition pinv (h : pheap) (n : nat) (dead : list nat) : Prop :=
  length (objs h) = n /\ length (cells h) = n /\
  forall o, o < n ->
    (In o dead -> nth_error (objs h) o = Some (false, o)) /\
    (~ In o dead -> nth_error (objs h) o = Some (true, o) /\ exists v, nth_error (cells h) o = Some (Live v)).

Lemma nth_app_new {A} (l : list A) x o n : length l = n -> o < S n ->
  nth_error (l ++ [x]) o = if o =? n then Some x else nth_error l o.
Proof.
  intros <- Ho. destruct (Nat.eqb_spec o (length l)) as [->|Hne].
  - rewrite nth_error_app2, Nat.sub_diag; auto.
  - rewrite nth_error_app1; auto; lia.
Qed.

Lemma nocopy_safe ops : forall h n dead, (forall o, In o dead -> o < n) -> pinv h n dead -> no_copy ops -> contract n dead ops ->
  exists h', prun h ops = Ok h' /\
    forall o acc, (match acc with Some v => pvalue h o = Ok v | None => forall v, pvalue h o <> Ok v end) ->
      match current n ops o acc with Some v => pvalue h' o = Ok v | None => forall v, pvalue h' o <> Ok v end.
Proof.
  induction ops as [|op t IH]; intros h n dead Hd (L1 & L2 & Hv) Hnc Hc.
  - exists h; split; auto.
  - inversion Hnc as [|? ? Hop Hnc']; subst. destruct op as [v|o|o v|o|o]; simpl in Hop; [| |..]; try contradiction.
    + simpl in Hc. simpl prun.
      destruct (IH (mkH (cells h ++ [Live v]) (objs h ++ [(true, length (cells h))])) (S (length (objs h))) dead) as (h' & E & Hc'); auto.
      { intros o Ho. apply Hd in Ho; lia. }
      { unfold pinv; simpl. rewrite !app_length; simpl. repeat split; try lia.
        - intros Hin. rewrite (nth_app_new _ _ _ (length (objs h))) by auto.
          apply Hd in Hin as Hlt. destruct (Nat.eqb_spec o (length (objs h))); [lia|]. now apply Hv.
        - rewrite (nth_app_new _ _ _ (length (objs h))) by auto. rewrite L2.
          destruct (Nat.eqb_spec o (length (objs h))) as [->|]; auto. apply Hv; auto; lia.
        - rewrite (nth_app_new _ _ _ (length (objs h))) by auto.
          destruct (Nat.eqb_spec o (length (objs h))) as [->|]; eauto. apply Hv; auto; lia. }
      exists h'; split; auto. intros o acc Hacc. simpl current. apply Hc'.
      unfold pvalue; simpl.
      destruct (Nat.lt_ge_cases o (S (length (objs h)))) as [Hlt|Hge].
      * rewrite (nth_app_new _ _ _ (length (objs h))) by auto.
        destruct (Nat.eqb_spec o (length (objs h))) as [->|].
        -- rewrite (nth_app_new _ _ _ (length (objs h))) by lia. now rewrite L2, Nat.eqb_refl.
        -- unfold pvalue in Hacc.
           destruct (in_dec Nat.eq_dec o dead) as [Hin|Hnin].
           ++ destruct (Hv o ltac:(lia)) as [A _]. rewrite (A Hin) in *. auto.
           ++ destruct (Hv o ltac:(lia)) as [_ A]. destruct (A Hnin) as [A1 (v' & A2)]. rewrite A1 in *.
              rewrite (nth_app_new _ _ _ (length (objs h))) by lia.
              destruct (Nat.eqb_spec o (length (objs h))); [lia|]. auto.
      * assert (nth_error (objs h ++ [(true, length (cells h))]) o = None)
          by (apply nth_error_None; rewrite app_length; simpl; lia).
        rewrite H. unfold pvalue in Hacc. rewrite (proj2 (nth_error_None (objs h) o)) in Hacc by lia.
        destruct (Nat.eqb_spec o (length (objs h))); [lia|]. auto.
    + simpl in Hc. destruct Hc as (Ho & Hnd & Hc). destruct (Hv o Ho) as [_ A]. destruct (A Hnd) as [A1 (v' & A2)].
      simpl prun. rewrite A1, A2. simpl bind.
      destruct (IH (mkH (lset (cells h) o (Live v)) (objs h)) (length (objs h)) dead) as (h' & E & Hc'); auto.
      { unfold pinv; simpl. rewrite lset_length. repeat split; auto.
        - intros; now apply Hv.
        - now apply Hv.
        - rewrite lset_nth. destruct ((o0 =? o) && _); eauto. now apply Hv. }
      exists h'; split; auto. intros x acc Hacc. simpl current. apply Hc'.
      unfold pvalue; simpl. unfold pvalue in Hacc.
      destruct (Nat.eqb_spec x o) as [->|Hne].
      * rewrite A1, lset_nth, Nat.eqb_refl. simpl. destruct (Nat.ltb_spec o (length (cells h))); auto. lia.
      * destruct (Nat.lt_ge_cases x (length (objs h))) as [Hlt|Hge].
        -- destruct (in_dec Nat.eq_dec x dead) as [Hin|Hnin].
           ++ rewrite (proj1 (Hv x Hlt) Hin) in *. auto.
           ++ destruct (proj2 (Hv x Hlt) Hnin) as (B1 & _). rewrite B1 in *. rewrite lset_nth.
              destruct (Nat.eqb_spec x o); [congruence|]. auto.
        -- rewrite (proj2 (nth_error_None (objs h) x)) in * by lia. auto.
    + simpl in Hc. destruct Hc as (Ho & Hnd & Hc). destruct (Hv o Ho) as [_ A]. destruct (A Hnd) as [A1 (v' & A2)].
      simpl prun. rewrite A1, A2. simpl bind. simpl current.
      apply (IH h (length (objs h)) dead); auto. split; auto.
    + simpl in Hc. destruct Hc as (Ho & Hnd & Hc). destruct (Hv o Ho) as [_ A]. destruct (A Hnd) as [A1 (v' & A2)].
      simpl prun. rewrite A1, A2. simpl bind.
      destruct (IH (mkH (lset (cells h) o Freed) (lset (objs h) o (false, o))) (length (objs h)) (o :: dead)) as (h' & E & Hc'); auto.
      { simpl; intros x [->|Hx]; auto. }
      { unfold pinv; simpl. rewrite !lset_length. repeat split; auto.
        - rewrite lset_nth. destruct (Nat.eqb_spec o0 o) as [->|Hne]; simpl.
          + destruct (Nat.ltb_spec o (length (objs h))); auto; lia.
          + intros [E|Hin]; [congruence|]. now apply Hv.
        - rewrite lset_nth. destruct (Nat.eqb_spec o0 o) as [->|Hne]; simpl; [tauto|].
          apply Hv; tauto.
        - rewrite lset_nth. destruct (Nat.eqb_spec o0 o) as [->|Hne]; simpl; [tauto|].
          apply Hv; tauto. }
      exists h'; split; auto. intros x acc Hacc. simpl current. apply Hc'.
      unfold pvalue; simpl. unfold pvalue in Hacc. rewrite lset_nth.
      destruct (Nat.eqb_spec x o) as [->|Hne]; simpl.
      * destruct (Nat.ltb_spec o (length (objs h))); [discriminate|lia].
      * destruct (Nat.lt_ge_cases x (length (objs h))) as [Hlt|Hge].
        -- destruct (in_dec Nat.eq_dec x dead) as [Hin|Hnin].
           ++ rewrite (proj1 (Hv x Hlt) Hin) in *. auto.
           ++ destruct (proj2 (Hv x Hlt) Hnin) as (B1 & _). rewrite B1 in *. rewrite lset_nth.
              destruct (Nat.eqb_spec x o); [congruence|]. auto.
        -- rewrite (proj2 (nth_error_None (objs h) x)) in * by lia. auto.
Qed.

Lemma nocopy_safe_top ops : no_copy ops -> contract 0 [] ops ->
  exists h, prun pempty ops = Ok h /\ forall o v, current 0 ops o None = Some v -> pvalue h o = Ok v.
Proof.
  intros Hn Hc. destruct (nocopy_safe ops pempty 0 []) as (h & E & H); auto.
  - simpl; tauto.
  - unfold pinv; simpl; repeat split; auto; intros; lia.
  - exists h; split; auto. intros o v Ho. specialize (H o None). rewrite Ho in H. apply H.
    intros v0; unfold pvalue, pempty; simpl. destruct o; discriminate.
Qed.
