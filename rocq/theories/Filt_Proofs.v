(** Proofs about the filter. *)
From Coq Require Import List Arith Lia Bool Reals Lra Permutation Sorted.
From Verif Require Import Base BaseLemmas RBool Filt_Model Filt_Spec.
Import ListNotations.
Open Scope nat_scope.

Definition keys (m : fmap) : list nat := map fst m.
Definition sorted (m : fmap) : Prop := StronglySorted lt (keys m).

Lemma mpush_in : forall k v m j, In j (keys (mpush k v m)) <-> j = k \/ In j (keys m).
Proof.
  intros k v m j; induction m as [|[i l] t IH]; simpl; [intuition|].
  destruct (k <? i); [simpl; intuition|]. destruct (k =? i) eqn:E.
  - apply Nat.eqb_eq in E. subst. simpl. intuition.
  - simpl. rewrite IH. intuition.
Qed.

Lemma mpush_sorted : forall k v m, sorted m -> sorted (mpush k v m).
Proof.
  intros k v m; unfold sorted; induction m as [|[i l] t IH]; intro H; simpl.
  - repeat constructor.
  - inversion H as [|? ? Ht Hi]; subst.
    destruct (k <? i) eqn:E1.
    + apply Nat.ltb_lt in E1. constructor; auto. constructor; auto.
      rewrite Forall_forall in *. intros x Hx. specialize (Hi x Hx). simpl in *. lia.
    + apply Nat.ltb_ge in E1. destruct (k =? i) eqn:E2.
      * constructor; auto.
      * apply Nat.eqb_neq in E2. simpl. constructor; auto.
        rewrite Forall_forall in *. intros x Hx.
        apply mpush_in in Hx as [->|Hx]; [lia|auto].
Qed.

Lemma mfind_notin : forall k m, ~ In k (keys m) -> mfind k m = [].
Proof.
  induction m as [|[i l] t IH]; intro H; simpl; auto.
  destruct (k =? i) eqn:E; [|apply IH; simpl in H; tauto].
  apply Nat.eqb_eq in E. subst. exfalso. apply H. now left.
Qed.

Lemma mpush_find : forall k v m j, sorted m ->
  mfind j (mpush k v m) = if j =? k then mfind k m ++ [v] else mfind j m.
Proof.
  intros k v m j; induction m as [|[i l] t IH]; intro H; simpl.
  - destruct (j =? k) eqn:E; auto.
  - inversion H as [|? ? Ht Hi]; subst.
    destruct (k <? i) eqn:E1.
    + apply Nat.ltb_lt in E1. simpl. destruct (j =? k) eqn:E2; auto.
      apply Nat.eqb_eq in E2. subst j. replace (k =? i) with false
        by (symmetry; apply Nat.eqb_neq; lia).
      rewrite mfind_notin; auto. intro K. rewrite Forall_forall in Hi. specialize (Hi _ K). lia.
    + destruct (k =? i) eqn:E2.
      * apply Nat.eqb_eq in E2. subst i. simpl. destruct (j =? k) eqn:E3; auto.
      * simpl. rewrite IH by auto. destruct (j =? i) eqn:E3.
        -- apply Nat.eqb_eq in E3. subst j. rewrite (Nat.eqb_sym i k), E2. auto.
        -- auto.
Qed.

Lemma mput_keys : forall k v m, keys (mput k v m) = keys m.
Proof.
  induction m as [|[i l] t IH]; simpl; auto. destruct (k =? i); simpl; congruence.
Qed.

Lemma mput_find : forall k v m j, In k (keys m) ->
  mfind j (mput k v m) = if j =? k then v else mfind j m.
Proof.
  induction m as [|[i l] t IH]; intros j H; simpl in H; [contradiction|]. simpl.
  destruct (k =? i) eqn:E.
  - apply Nat.eqb_eq in E. subst i. simpl. destruct (j =? k); auto.
  - simpl. apply Nat.eqb_neq in E. rewrite IH by (destruct H; [congruence|auto]).
    destruct (j =? i) eqn:E2; auto. apply Nat.eqb_eq in E2. subst j.
    replace (i =? k) with false; auto. symmetry. apply Nat.eqb_neq. congruence.
Qed.

Lemma fold_push : forall k (f : nat * R -> nat * R) l m, sorted m ->
  let m' := fold_left (fun m e => mpush k (f e) m) l m in
  sorted m' /\ (forall j, mfind j m' = if j =? k then mfind k m ++ map f l else mfind j m) /\
  (forall j, In j (keys m') <-> (l <> [] /\ j = k) \/ In j (keys m)).
Proof.
  intros k f l; induction l as [|e l IH]; intros m H; simpl.
  - split; auto. split.
    + intro j. destruct (j =? k) eqn:E; auto. apply Nat.eqb_eq in E. subst. now rewrite app_nil_r.
    + intro j. intuition.
  - destruct (IH (mpush k (f e) m) (mpush_sorted _ _ _ H)) as [A [B C]].
    split; [exact A|]. split.
    + intro j. rewrite B, !mpush_find, Nat.eqb_refl by auto.
      destruct (j =? k); auto. now rewrite <- app_assoc.
    + intro j. rewrite C, mpush_in. split.
      * intros [[_ ->]|[->|K]]; auto; left; split; auto; discriminate.
      * intros [[_ ->]|K]; auto.
Qed.

Lemma fold_sum : forall (f : nat * R -> R) l s,
  fold_left (fun s e => (s + f e)%R) l s = (s + lsum (map f l))%R.
Proof.
  intros f l; induction l; intro s; simpl; [lra|]. rewrite IHl. lra.
Qed.

(** normalised neighbour list *)
Definition total (r : R) (l : list (nat * R)) : R := lsum (map (fun e => r - snd e)%R l).
Definition normalised (r : R) (l : list (nat * R)) : list (nat * R) :=
  map (fun e => (fst e, ((r - snd e) / total r l)%R)) l.
Definition good_nbr (r : R) (l : list (nat * R)) : Prop :=
  (forall e, In e l -> (snd e <= r)%R) /\ (0 < total r l)%R.

Lemma lsum_ge_each : forall (f : nat * R -> R) l e, (forall e, In e l -> (0 <= f e)%R) ->
  In e l -> (f e <= lsum (map f l))%R.
Proof.
  intros f l e; induction l as [|a l IH]; intros H He; [contradiction|]. simpl.
  assert (0 <= lsum (map f l))%R by (apply lsum_map_nonneg; intros; apply H; now right).
  destruct He as [->|He]; [lra|].
  assert (0 <= f a)%R by (apply H; now left).
  specialize (IH (fun e h => H e (or_intror h)) He). lra.
Qed.

Lemma init_nodes_ok : forall r nbr todo m, sorted m -> NoDup (map fst todo) ->
  (forall n, In n todo -> ~ In (fst n) (keys m)) ->
  (forall n, In n todo -> good_nbr r (nbr n)) ->
  exists m', init_nodes r nbr todo m = Ok m' /\ sorted m' /\
    (forall j, In j (keys m') <-> In j (keys m) \/ In j (map fst todo)) /\
    (forall n, In n todo -> mfind (fst n) m' = normalised r (nbr n)) /\
    (forall j, ~ In j (map fst todo) -> mfind j m' = mfind j m).
Proof.
  intros r nbr todo; induction todo as [|n rest IH]; intros m Hs Hn Hd Hg.
  - exists m. simpl. repeat split; auto; intuition.
  - cbn [init_nodes]. cbv zeta.
    destruct (fold_push (fst n) (fun e => (fst e, (r - snd e)%R)) (nbr n) m Hs) as [A [B C]].
    set (m1 := fold_left _ (nbr n) m) in *.
    rewrite (fold_sum (fun e => r - snd e)%R), Rplus_0_l.
    change (lsum (map (fun e => (r - snd e)%R) (nbr n))) with (total r (nbr n)).
    destruct (Hg n (or_introl eq_refl)) as [G1 G2].
    rewrite (proj2 (rltb_true _ _) G2). cbn [assert_].
    assert (V : map (fun e => (fst e, (snd e / total r (nbr n))%R)) (mfind (fst n) m1)
                = normalised r (nbr n)).
    { rewrite B, Nat.eqb_refl, mfind_notin by (apply Hd; now left).
      simpl. rewrite map_map. reflexivity. }
    rewrite V.
    assert (F : forallb (fun e => rleb (snd e) 1) (normalised r (nbr n)) = true).
    { apply forallb_forall. intros e He. apply in_map_iff in He as [e0 [<- He]]. cbn [snd].
      apply rleb_true. apply (Rmult_le_reg_r (total r (nbr n))); auto.
      unfold Rdiv. rewrite Rmult_assoc, Rinv_l by lra.
      assert (r - snd e0 <= total r (nbr n))%R; [|lra].
      apply (lsum_ge_each (fun e => r - snd e)%R); auto. intros e Hi. specialize (G1 e Hi). lra. }
    rewrite F. cbn [assert_].
    assert (Ne : nbr n <> []).
    { intro K. unfold total in G2. rewrite K in G2. simpl in G2. lra. }
    assert (Ik : In (fst n) (keys m1)) by (apply C; left; auto).
    inversion Hn as [|? ? Hnot Hn']; subst.
    destruct (IH (mput (fst n) (normalised r (nbr n)) m1)) as [m' [E [S' [K' [P' Q']]]]].
    + unfold sorted. rewrite mput_keys. exact A.
    + exact Hn'.
    + intros q Hq. rewrite mput_keys, C. intros [[_ K]|K].
      * apply Hnot. rewrite <- K. now apply in_map.
      * apply (Hd q); auto. now right.
    + intros q Hq. apply Hg. now right.
    + exists m'. split; auto. split; auto. split; [|split].
      * intro j. rewrite K', mput_keys, C. simpl. intuition; subst; auto.
      * intros q [<-|Hq]; auto.
        rewrite Q' by auto. rewrite mput_find, Nat.eqb_refl by auto. reflexivity.
      * intros j Hj. simpl in Hj. rewrite Q' by tauto. rewrite mput_find by auto.
        replace (j =? fst n) with false by (symmetry; apply Nat.eqb_neq; intro; apply Hj; auto).
        rewrite B. replace (j =? fst n) with false
          by (symmetry; apply Nat.eqb_neq; intro; apply Hj; auto). reflexivity.
Qed.

Lemma sorted_nodup : forall l : list nat, StronglySorted lt l -> NoDup l.
Proof.
  induction l; intro H; constructor; inversion H; subst; auto.
  intro K. rewrite Forall_forall in H3. specialize (H3 _ K). lia.
Qed.

Lemma in_mfind : forall k l m, sorted m -> In (k, l) m -> mfind k m = l.
Proof.
  intros k l m; induction m as [|[i li] t IH]; intros H Hi; [contradiction|]. simpl.
  inversion H as [|? ? Ht Hf]; subst. destruct Hi as [E|Hi].
  - injection E as -> ->. now rewrite Nat.eqb_refl.
  - assert (In k (keys t)) by (apply (in_map fst) in Hi; exact Hi).
    rewrite Forall_forall in Hf. specialize (Hf _ H0).
    replace (k =? i) with false by (symmetry; apply Nat.eqb_neq; lia). auto.
Qed.

(** ** The overloads, entry by entry *)
Lemma get_lt : forall (v : arr R) i, i < len v -> get v i = Ok (cell v i).
Proof. intros; now apply get_ok. Qed.

Lemma nv_entry_ok : forall dv lo hi x k l out, k < len out -> k < len x ->
  (forall e, In e l -> fst e < len x) ->
  exists out', nv_entry dv lo hi x k l out = Ok out' /\ len out' = len out /\
    (forall j, j <> k -> cell out' j = cell out j) /\
    cell out' k = if (lo <=? k) && (k <? hi) then
                    if dv k then (cell out k + lsum (map (fun e => cell x (fst e) * snd e) l))%R
                    else match l with [] => cell out k | _ => cell x k end
                  else cell out k.
Proof.
  intros dv lo hi x k l; induction l as [|e t IH]; intros out Ho Hx He; cbn [nv_entry].
  - exists out. repeat split; auto. simpl. destruct (_ && _), (dv k); auto. lra.
  - destruct ((lo <=? k) && (k <? hi)) eqn:W.
    + destruct (dv k) eqn:D.
      * rewrite get_ok by (apply He; now left). cbn [bind]. rewrite vadd_ok by auto. cbn [bind].
        match goal with |- context [nv_entry _ _ _ _ _ _ ?o] =>
          destruct (IH o) as [o' [E [L [J K]]]] end; auto.
        { intros; apply He; now right. }
        exists o'. rewrite E. cbn [len cell] in *. split; auto. split; auto. split.
        -- intros j Hj. rewrite J by auto. now rewrite upd_other.
        -- rewrite K, upd_same. simpl. lra.
      * rewrite get_ok by auto. cbn [bind]. rewrite set_ok by auto. cbn [bind].
        match goal with |- context [nv_entry _ _ _ _ _ _ ?o] =>
          destruct (IH o) as [o' [E [L [J K]]]] end; auto.
        { intros; apply He; now right. }
        exists o'. rewrite E. cbn [len cell] in *. split; auto. split; auto. split.
        -- intros j Hj. rewrite J by auto. now rewrite upd_other.
        -- rewrite K. destruct t; auto. now rewrite upd_same.
    + cbn [bind]. destruct (IH out) as [o' [E [L [J K]]]]; auto.
      { intros; apply He; now right. }
      exists o'. auto.
Qed.

Lemma vec_entry_ok : forall dv x k l out, k < len out -> k < len x ->
  (forall e, In e l -> fst e < len x) ->
  exists out', vec_entry dv x k l out = Ok out' /\ len out' = len out /\
    (forall j, j <> k -> cell out' j = cell out j) /\
    cell out' k = (cell out k + (if dv k then lsum (map (fun e => cell x (fst e) * snd e) l)
                                 else INR (length l) * cell x k))%R.
Proof.
  intros dv x k l; induction l as [|e t IH]; intros out Ho Hx He; cbn [vec_entry].
  - exists out. repeat split; auto. simpl. destruct (dv k); lra.
  - destruct (dv k) eqn:D.
    + rewrite get_ok by (apply He; now left). cbn [bind]. rewrite vadd_ok by auto. cbn [bind].
      match goal with |- context [vec_entry _ _ _ _ ?o] =>
          destruct (IH o) as [o' [E [L [J K]]]] end; auto.
      { intros; apply He; now right. }
      exists o'. rewrite E. cbn [len cell] in *. split; auto. split; auto. split.
      * intros j Hj. rewrite J by auto. now rewrite upd_other.
      * rewrite K, upd_same. simpl. lra.
    + rewrite get_ok by auto. cbn [bind]. rewrite vadd_ok by auto. cbn [bind].
      match goal with |- context [vec_entry _ _ _ _ ?o] =>
          destruct (IH o) as [o' [E [L [J K]]]] end; auto.
      { intros; apply He; now right. }
      exists o'. rewrite E. cbn [len cell] in *. split; auto. split; auto. split.
      * intros j Hj. rewrite J by auto. now rewrite upd_other.
      * rewrite K, upd_same. cbn [length]. rewrite S_INR. lra.
Qed.

Lemma nzins_rep : forall z x k, represents z x -> z k <> None \/ x k = 0%R ->
  represents (nzins z k) x.
Proof.
  intros z x k H _. unfold nzins. pose proof (H k) as Hk. destruct (z k) eqn:E; auto.
  intro j. unfold upd. destruct (j =? k) eqn:Ej; [|apply H].
  apply Nat.eqb_eq in Ej. subst. auto.
Qed.

Lemma nzget_rep : forall z x k, represents z x -> nzget z k = x k.
Proof. intros z x k H. unfold nzget. specialize (H k). destruct (z k); auto. Qed.

Lemma nz_entry_ok : forall dv serial lo hi x k l z out, k < len out -> represents z x ->
  exists z' out', nz_entry dv serial lo hi k l (z, out) = Ok (z', out') /\ len out' = len out /\
    represents z' x /\
    (forall j, j <> k -> cell out' j = cell out j) /\
    (serial || ((lo <=? k) && (k <? hi)) = true ->
     if dv k then cell out' k = (cell out k + lsum (map (fun e => x (fst e) * snd e) l))%R
     else (In k (map fst l) -> cell out k = 0%R -> cell out' k = x k) /\
          (cell out k = x k -> cell out' k = x k)) /\
    (serial || ((lo <=? k) && (k <? hi)) = false -> cell out' k = cell out k).
Proof.
  intros dv serial lo hi x k l; induction l as [|e t IH]; intros z out Ho Hz; cbn [nz_entry].
  - exists z, out. repeat split; auto. intros _. destruct (dv k); simpl; [lra|].
    split; [contradiction|auto].
  - cbn [fst snd]. destruct (serial || ((lo <=? k) && (k <? hi))) eqn:W.
    + rewrite andb_true_r. pose proof (Hz (fst e)) as Hze.
      destruct (z (fst e)) as [v|] eqn:Ez.
      * destruct (dv k) eqn:D.
        -- rewrite vadd_ok by auto. cbn [bind].
           match goal with |- context [nz_entry _ _ _ _ _ _ (?zz, ?o)] =>
             destruct (IH zz o) as [z' [o' [E [L [R' [J [K1 K2]]]]]]] end; auto.
           exists z', o'. rewrite E. cbn [len cell] in *. split; auto. split; auto. split; auto.
           split.
           { intros j Hj. rewrite J by auto. now rewrite upd_other. }
           split; [|discriminate]. intros _. rewrite (K1 eq_refl), upd_same. simpl.
           rewrite (nzget_rep _ _ _ Hz). lra.
        -- rewrite set_ok by auto. cbn [bind].
           match goal with |- context [nz_entry _ _ _ _ _ _ (?zz, ?o)] =>
             destruct (IH zz o) as [z' [o' [E [L [R' [J [K1 K2]]]]]]] end; auto.
           { apply nzins_rep; auto. destruct (z k) eqn:Ek; [left; discriminate|right].
             specialize (Hz k). rewrite Ek in Hz. auto. }
           exists z', o'. rewrite E. cbn [len cell] in *. split; auto. split; auto. split; auto.
           split.
           { intros j Hj. rewrite J by auto. now rewrite upd_other. }
           split; [|discriminate]. intros _. destruct (K1 eq_refl) as [_ K1'].
           assert (X : cell o' k = x k).
           { apply K1'. rewrite upd_same. apply nzget_rep; auto. }
           split; auto.
      * cbn [bind]. destruct (IH z out) as [z' [o' [E [L [R' [J [K1 K2]]]]]]]; auto.
        exists z', o'. rewrite E. repeat (split; auto). intros _.
        specialize (K1 eq_refl). destruct (dv k).
        -- simpl. rewrite Hze. lra.
        -- destruct K1 as [K1a K1b]. split; auto. simpl. intros [Hk|Hk] H0; auto.
           apply K1b. rewrite H0. subst k. auto.
    + rewrite andb_false_r. cbn [bind].
      destruct (IH z out) as [z' [o' [E [L [R' [J [K1 K2]]]]]]]; auto.
      exists z', o'. rewrite E. repeat (split; auto). discriminate.
Qed.

(** ** Whole maps *)
Lemma nv_entries_ok : forall dv lo hi x m out, sorted m ->
  (forall k, In k (keys m) -> k < len out /\ k < len x) ->
  (forall k l e, In (k, l) m -> In e l -> fst e < len x) ->
  exists out', nv_entries dv lo hi x m out = Ok out' /\ len out' = len out /\
    (forall j, ~ In j (keys m) -> cell out' j = cell out j) /\
    (forall k l, In (k, l) m -> cell out' k =
       if (lo <=? k) && (k <? hi) then
         if dv k then (cell out k + lsum (map (fun e => cell x (fst e) * snd e) l))%R
         else match l with [] => cell out k | _ => cell x k end
       else cell out k).
Proof.
  intros dv lo hi x m; induction m as [|[k l] t IH]; intros out Hs Hk He; cbn [nv_entries].
  - exists out. repeat split; auto. contradiction.
  - inversion Hs as [|? ? Ht Hf]; subst.
    destruct (Hk k (or_introl eq_refl)) as [K1 K2].
    destruct (nv_entry_ok dv lo hi x k l out K1 K2) as [o1 [E1 [L1 [J1 C1]]]].
    { intros e Hi. apply (He k l e); auto. now left. }
    rewrite E1. cbn [bind].
    destruct (IH o1) as [o2 [E2 [L2 [J2 C2]]]]; auto.
    { intros j Hj. rewrite L1. apply Hk. now right. }
    { intros j lj e Hj Hi. apply (He j lj e); auto. now right. }
    exists o2. rewrite E2. split; auto. split; [congruence|]. split.
    + intros j Hj. cbn [keys map fst] in Hj. rewrite J2 by (intro; apply Hj; now right).
      apply J1. intro; subst; apply Hj; now left.
    + intros j lj [Ej|Hj].
      * injection Ej as <- <-. rewrite J2; auto.
        intro K. rewrite Forall_forall in Hf. specialize (Hf _ K). lia.
      * rewrite (C2 j lj Hj).
        assert (j <> k).
        { intro; subst. rewrite Forall_forall in Hf. apply (in_map fst) in Hj.
          specialize (Hf _ Hj). simpl in Hf. lia. }
        now rewrite J1.
Qed.

Lemma vec_entries_ok : forall dv x m out, sorted m ->
  (forall k, In k (keys m) -> k < len out /\ k < len x) ->
  (forall k l e, In (k, l) m -> In e l -> fst e < len x) ->
  exists out', vec_entries dv x m out = Ok out' /\ len out' = len out /\
    (forall j, ~ In j (keys m) -> cell out' j = cell out j) /\
    (forall k l, In (k, l) m -> cell out' k =
       (cell out k + (if dv k then lsum (map (fun e => cell x (fst e) * snd e) l)
                      else INR (length l) * cell x k))%R).
Proof.
  intros dv x m; induction m as [|[k l] t IH]; intros out Hs Hk He; cbn [vec_entries].
  - exists out. repeat split; auto. contradiction.
  - inversion Hs as [|? ? Ht Hf]; subst.
    destruct (Hk k (or_introl eq_refl)) as [K1 K2].
    destruct (vec_entry_ok dv x k l out K1 K2) as [o1 [E1 [L1 [J1 C1]]]].
    { intros e Hi. apply (He k l e); auto. now left. }
    rewrite E1. cbn [bind].
    destruct (IH o1) as [o2 [E2 [L2 [J2 C2]]]]; auto.
    { intros j Hj. rewrite L1. apply Hk. now right. }
    { intros j lj e Hj Hi. apply (He j lj e); auto. now right. }
    exists o2. rewrite E2. split; auto. split; [congruence|]. split.
    + intros j Hj. cbn [keys map fst] in Hj. rewrite J2 by (intro; apply Hj; now right).
      apply J1. intro; subst; apply Hj; now left.
    + intros j lj [Ej|Hj].
      * injection Ej as <- <-. rewrite J2; auto.
        intro K. rewrite Forall_forall in Hf. specialize (Hf _ K). lia.
      * rewrite (C2 j lj Hj).
        assert (j <> k).
        { intro; subst. rewrite Forall_forall in Hf. apply (in_map fst) in Hj.
          specialize (Hf _ Hj). simpl in Hf. lia. }
        now rewrite J1.
Qed.

Lemma nz_entries_ok : forall dv serial lo hi x m z out, sorted m ->
  (forall k, In k (keys m) -> k < len out) -> represents z x ->
  exists z' out', nz_entries dv serial lo hi m (z, out) = Ok (z', out') /\ len out' = len out /\
    represents z' x /\
    (forall j, ~ In j (keys m) -> cell out' j = cell out j) /\
    (forall k l, In (k, l) m -> 
     (serial || ((lo <=? k) && (k <? hi)) = true ->
      if dv k then cell out' k = (cell out k + lsum (map (fun e => x (fst e) * snd e) l))%R
      else (In k (map fst l) -> cell out k = 0%R -> cell out' k = x k)) /\
     (serial || ((lo <=? k) && (k <? hi)) = false -> cell out' k = cell out k)).
Proof.
  intros dv serial lo hi x m; induction m as [|[k l] t IH]; intros z out Hs Hk Hz;
    cbn [nz_entries].
  - exists z, out. split; auto. split; auto. split; auto. split; auto. contradiction.
  - inversion Hs as [|? ? Ht Hf]; subst.
    pose proof (Hk k (or_introl eq_refl)) as K1.
    destruct (nz_entry_ok dv serial lo hi x k l z out K1 Hz)
      as [z1 [o1 [E1 [L1 [R1 [J1 [C1 D1]]]]]]].
    rewrite E1. cbn [bind].
    destruct (IH z1 o1) as [z2 [o2 [E2 [L2 [R2 [J2 C2]]]]]]; auto.
    { intros j Hj. rewrite L1. apply Hk. now right. }
    exists z2, o2. rewrite E2. split; auto. split; [congruence|]. split; auto. split.
    + intros j Hj. cbn [keys map fst] in Hj. rewrite J2 by (intro; apply Hj; now right).
      apply J1. intro; subst; apply Hj; now left.
    + intros j lj [Ej|Hj].
      * injection Ej as <- <-. rewrite J2.
        { split; auto. intro W. specialize (C1 W). destruct (dv k); auto. tauto. }
        intro K. rewrite Forall_forall in Hf. specialize (Hf _ K). lia.
      * assert (j <> k).
        { intro; subst. rewrite Forall_forall in Hf. apply (in_map fst) in Hj.
          specialize (Hf _ Hj). simpl in Hf. lia. }
        specialize (C2 j lj Hj). rewrite J1 in C2 by auto. exact C2.
Qed.
