(** Proofs about the layout of the coupled vector. *)
From Coq Require Import List Arith Bool Permutation Lia Reals Lra.
From Verif Require Import Base BaseLemmas Sens_Model Sens_Spec Sens_Proofs Mph_Model Mph_Spec.
Import ListNotations.
Open Scope nat_scope.

Lemma nsum_S n f : nsum (S n) f = nsum n f + f n.
Proof.
  unfold nsum. rewrite seq_S, map_app, fold_right_app. cbn [map fold_right Nat.add].
  rewrite Nat.add_0_r. generalize (map f (seq 0 n)) as l. induction l as [|a l IH]; cbn; [lia|]. rewrite IH. lia.
Qed.
Lemma seq_blocks f : forall m a, flat_map (fun i => seq (a + nsum i f) (f i)) (seq 0 m) = seq a (nsum m f).
Proof.
  induction m as [|m IH]; intros a; [reflexivity|].
  rewrite seq_S, flat_map_app, IH, nsum_S, seq_app. cbn [flat_map]. rewrite app_nil_r. reflexivity.
Qed.
Lemma flat_map_ext_in {A B} (f g : A -> list B) l : (forall a, In a l -> f a = g a) -> flat_map f l = flat_map g l.
Proof. induction l; cbn; intros H; [reflexivity|]. rewrite H, IHl; auto. Qed.
Lemma flat_map_cons_perm {A B} (f : A -> B) (g : A -> list B) l :
  Permutation (flat_map (fun a => f a :: g a) l) (map f l ++ flat_map g l).
Proof.
  induction l as [|a l IH]; cbn; [constructor|]. constructor.
  rewrite IH, !app_assoc. apply Permutation_app_tail, Permutation_app_comm.
Qed.
Lemma flat_map_app_perm {A B} (f g : A -> list B) l :
  Permutation (flat_map (fun a => f a ++ g a) l) (flat_map f l ++ flat_map g l).
Proof.
  induction l as [|a l IH]; cbn; [constructor|]. rewrite <- !app_assoc. apply Permutation_app_head.
  rewrite IH, !app_assoc. apply Permutation_app_tail, Permutation_app_comm.
Qed.
Lemma flat_map_swap {A B D} (f : A -> B -> list D) l m :
  Permutation (flat_map (fun a => flat_map (f a) m) l) (flat_map (fun b => flat_map (fun a => f a b) l) m).
Proof.
  revert l. induction m as [|b m IH]; intros l; cbn.
  - induction l; cbn; auto.
  - rewrite flat_map_app_perm. apply Permutation_app_head, IH.
Qed.

Section Lay.
Variables (np nd : nat) (loc : nat -> nat -> nat).
Notation is := (index_set np nd loc).
Notation sz := (n_of np loc).
Lemma set_length i : length (is i) = sz i.
Proof.
  unfold index_set, n_of, nsum. induction (seq 0 np) as [|p l IH]; cbn; [reflexivity|].
  rewrite app_length, seq_length, IH. reflexivity.
Qed.
Lemma sets_length m : length (flat_map is (seq 0 m)) = nsum m sz.
Proof.
  induction m as [|m IH]; [reflexivity|]. rewrite seq_S, flat_map_app, app_length, IH, nsum_S. cbn.
  rewrite app_nil_r, set_length. reflexivity.
Qed.
Lemma sets_partition : Permutation (flat_map is (seq 0 nd)) (seq 0 (n_all np nd loc)).
Proof.
  assert (P : Permutation (flat_map is (seq 0 nd)) (seq 0 (nsum np (fun q => nsum nd (loc q))))).
  { unfold index_set. rewrite (flat_map_swap (fun i p => seq (start nd loc p i) (loc p i))).
    rewrite <- (seq_blocks (fun q => nsum nd (loc q)) np 0).
    erewrite flat_map_ext_in; [apply Permutation_refl|]. intros p _. cbn.
    unfold start. now rewrite seq_blocks. }
  assert (L := Permutation_length P). rewrite sets_length, seq_length in L. unfold n_all. now rewrite L.
Qed.
Lemma sets_nodup : NoDup (flat_map is (seq 0 nd)).
Proof. eapply Permutation_NoDup; [symmetry; apply sets_partition|apply seq_NoDup]. Qed.
Lemma nodup_app {A} (l m : list A) : NoDup (l ++ m) -> NoDup l /\ NoDup m /\ forall a, In a l -> In a m -> False.
Proof.
  induction l as [|a l IH]; cbn; intros H; [split; [constructor|split; auto]|].
  inversion H as [|? ? N H']; subst. destruct (IH H') as (U & V & W). split; [|split; auto].
  - constructor; auto. intros C. apply N, in_or_app. now left.
  - intros b [<-|B] C; [apply N, in_or_app; now right|exact (W b B C)].
Qed.
Lemma nodup_flat {A B} (f : A -> list B) l : NoDup (flat_map f l) -> NoDup l ->
  (forall a, In a l -> NoDup (f a)) /\
  (forall a b x, In a l -> In b l -> a <> b -> In x (f a) -> In x (f b) -> False).
Proof.
  induction l as [|a l IH]; cbn; intros H N; [split; intros ? ; contradiction|].
  apply nodup_app in H. destruct H as (U & V & W). inversion N as [|? ? Na Nl]; subst.
  destruct (IH V Nl) as [P Q]. split.
  - intros b [<-|Bi]; auto.
  - intros b c x [<-|Bi] [<-|D] Ne X Y.
    + congruence.
    + apply (W x X), in_flat_map. eauto.
    + apply (W x Y), in_flat_map. eauto.
    + exact (Q b c x Bi D Ne X Y).
Qed.
Lemma set_nodup i : i < nd -> NoDup (is i).
Proof. intros Hi. apply (nodup_flat is _ sets_nodup (seq_NoDup _ _)). apply in_seq. lia. Qed.
Lemma sets_disjoint i j g : i < nd -> j < nd -> i <> j -> In g (is i) -> In g (is j) -> False.
Proof.
  intros Hi Hj. apply (proj2 (nodup_flat is _ sets_nodup (seq_NoDup _ _))); apply in_seq; lia.
Qed.
Lemma set_range i g : i < nd -> In g (is i) -> g < n_all np nd loc.
Proof.
  intros Hi Hg. assert (H : In g (flat_map is (seq 0 nd))) by (apply in_flat_map; exists i; split; auto; apply in_seq; lia).
  apply (Permutation_in _ sets_partition), in_seq in H. lia.
Qed.
Lemma set_cover g : g < n_all np nd loc -> exists i k, i < nd /\ k < sz i /\ nth k (is i) 0 = g.
Proof.
  intros Hg. assert (H : In g (seq 0 (n_all np nd loc))) by (apply in_seq; lia).
  apply (Permutation_in _ (Permutation_sym sets_partition)), in_flat_map in H. destruct H as (i & Hi & H).
  apply in_seq in Hi. apply (In_nth _ _ 0) in H. destruct H as (k & Hk & E). rewrite set_length in Hk.
  exists i, k. repeat split; auto; lia.
Qed.

Lemma index_of_none g l : ~ In g l -> index_of g l = None.
Proof.
  induction l as [|a l IH]; cbn; intros H; [reflexivity|]. destruct (Nat.eqb_spec a g); [exfalso; auto|].
  rewrite IH; auto.
Qed.
Lemma index_of_nth l : NoDup l -> forall k, k < length l -> index_of (nth k l 0) l = Some k.
Proof.
  induction l as [|a l IH]; cbn; intros N k Hk; [lia|]. inversion N; subst. destruct k as [|k].
  - now rewrite Nat.eqb_refl.
  - destruct (Nat.eqb_spec a (nth k l 0)).
    + exfalso. subst a. apply H1, nth_In. lia.
    + rewrite IH; auto. lia.
Qed.
Lemma sub_put_same i v x k : i < nd -> k < sz i -> sub (is i) (put (is i) v x) k = v k.
Proof.
  intros Hi Hk. unfold sub, put. rewrite index_of_nth; auto using set_nodup. now rewrite set_length.
Qed.
Lemma sub_put_other i j v x k : i < nd -> j < nd -> i <> j -> k < sz i ->
  sub (is i) (put (is j) v x) k = sub (is i) x k.
Proof.
  intros Hi Hj Ne Hk. unfold sub, put. rewrite index_of_none; auto.
  intros C. apply (sets_disjoint i j (nth k (is i) 0) Hi Hj Ne); auto. apply nth_In. now rewrite set_length.
Qed.
Lemma put_outside j v x g : j < nd -> n_all np nd loc <= g -> put (is j) v x g = x g.
Proof.
  intros Hj Hg. unfold put. rewrite index_of_none; auto. intros C. apply set_range in C; auto. lia.
Qed.

(** blocks written one after the other *)
Lemma copied i : flat_map (fun p => seq (first_index loc p i) (loc p i)) (seq 0 np) = seq 0 (sz i).
Proof. exact (seq_blocks (fun p => loc p i) np 0). Qed.
Lemma fold_upd (w : vec) : forall m a v k, fold_left (fun v k => upd v k (w k)) (seq a m) v k
  = if (a <=? k) && (k <? a + m) then w k else v k.
Proof.
  induction m as [|m IH]; intros a v k; cbn [seq fold_left].
  - destruct (Nat.leb_spec a k), (Nat.ltb_spec k (a + 0)); cbn; auto; lia.
  - rewrite IH. unfold upd.
    destruct (Nat.leb_spec (S a) k), (Nat.ltb_spec k (S a + m)), (Nat.leb_spec a k), (Nat.ltb_spec k (a + S m)); cbn;
      try lia; destruct (Nat.eqb_spec k a); subst; auto; lia.
Qed.
Lemma copy_in_sub s x : forall i k, i < nd -> k < sz i -> sub (is i) (copy_in np nd loc s x) k = s i k.
Proof.
  unfold copy_in.
  assert (H : forall m, m <= nd -> forall x i k, i < nd -> k < sz i ->
    sub (is i) (fold_left (fun x i => put (is i) (fold_left (fun v k => upd v k (s i k))
       (flat_map (fun p => seq (first_index loc p i) (loc p i)) (seq 0 np)) (sub (is i) x)) x) (seq 0 m) x) k
    = if i <? m then s i k else sub (is i) x k).
  { induction m as [|m IH]; intros Hm y i k Hi Hk; [reflexivity|].
    rewrite seq_S, fold_left_app. cbn [fold_left]. rewrite Nat.add_0_l. cbv beta zeta. destruct (Nat.eq_dec i m).
    - subst m. rewrite sub_put_same by auto. rewrite copied, fold_upd.
      destruct (Nat.ltb_spec i (S i)); [|lia]. rewrite Nat.add_0_l. cbn [Nat.leb andb]. destruct (Nat.ltb_spec k (sz i)); [auto|lia].
    - rewrite sub_put_other by (auto; lia). rewrite IH by (auto; lia).
      destruct (Nat.ltb_spec i m), (Nat.ltb_spec i (S m)); auto; lia. }
  intros i k Hi Hk. rewrite H by auto. destruct (Nat.ltb_spec i nd); [auto|lia].
Qed.
Lemma copy_out_at x s : forall i, i < nd -> forall k, copy_out np nd loc x s i k = if k <? sz i then sub (is i) x k else s i k.
Proof.
  unfold copy_out.
  assert (H : forall m, m <= nd -> forall s i k,
    fold_left (fun s i => upd s i (fold_left (fun v k => upd v k (sub (is i) x k))
       (flat_map (fun p => seq (first_index loc p i) (loc p i)) (seq 0 np)) (s i))) (seq 0 m) s i k
    = if i <? m then if k <? sz i then sub (is i) x k else s i k else s i k).
  { induction m as [|m IH]; intros Hm y i k; [reflexivity|].
    rewrite seq_S, fold_left_app. cbn [fold_left]. rewrite Nat.add_0_l. cbv beta zeta. destruct (Nat.eq_dec i m).
    - subst m. rewrite upd_same, copied, fold_upd.
      destruct (Nat.ltb_spec i (S i)); [|lia]. rewrite Nat.add_0_l. cbn [Nat.leb andb]. destruct (Nat.ltb_spec k (sz i)); auto.
      rewrite IH by lia. destruct (Nat.ltb_spec i i); [lia|auto].
    - rewrite upd_other by auto. rewrite IH by lia.
      destruct (Nat.ltb_spec i m), (Nat.ltb_spec i (S m)); auto; lia. }
  intros i Hi k. rewrite H by auto. destruct (Nat.ltb_spec i nd); [auto|lia].
Qed.
End Lay.
