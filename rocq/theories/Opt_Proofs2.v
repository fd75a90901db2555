(** Proofs about the GCMMA outer and inner loops. *)
From Coq Require Import List Arith Lia Bool Reals Lra.
From Verif Require Import Base BaseLemmas RBool Opt_Model Opt_Spec.
Import ListNotations.
Open Scope nat_scope.

Section G.
Context (M : nat) (f0 : vec -> R) (fc : vec -> nat -> R).
Context (mma : gstate -> nat -> list vec -> vec) (conser : gstate -> nat -> vec -> bool).
Context (innmax max_iters nrel : nat) (geps : R) (bfuel : nat).

Notation OUTER := (outer M f0 fc mma conser innmax max_iters nrel geps bfuel).
Notation REACH := (gcmma_reach M f0 fc mma conser innmax max_iters nrel geps bfuel).
Notation LOOP := (gcmma_loop M f0 fc mma conser innmax max_iters nrel geps).

(** ** Points *)
Section Box.
Context (N : nat) (lo hi : vec).
Notation box := (in_box N lo hi).
Hypothesis Hmma : forall g k tr, box (mma g k tr).

Lemma backtrack_box : forall fuel frac old1 xmma cur tr r, (0 <= frac <= 1)%R -> box old1 ->
  box xmma -> box cur -> Forall box tr ->
  backtrack M fc fuel frac old1 xmma cur tr = Ok r -> box (fst r) /\ Forall box (snd r).
Proof.
  induction fuel; intros frac old1 xmma cur tr r Hf H1 Hx Hc Ht H; simpl in H;
    destruct (M =? 0); try discriminate; destruct (rltb 100 (fc cur 0)); try discriminate;
    try (injection H as <-; auto).
  assert (Hn : box (fun i => (old1 i + frac * (xmma i - old1 i))%R)).
  { intros i Hi. specialize (H1 i Hi). specialize (Hx i Hi). nra. }
  apply (IHfuel _ _ _ _ _ _) in H; auto.
  - nra.
  - apply Forall_app; auto.
Qed.

Lemma backtrack_none : forall fuel frac old1 xmma cur tr r, (fc cur 0 <= 100)%R ->
  backtrack M fc fuel frac old1 xmma cur tr = Ok r -> r = (cur, tr).
Proof.
  intros. apply rltb_false in H. destruct fuel; simpl in H0; destruct (M =? 0);
    try discriminate; rewrite H in H0; congruence.
Qed.

Lemma inner_box : forall fuel rem g tr r,
  (box (g_old1 g) \/ forall k tr, (fc (mma g k tr) 0 <= 100)%R) -> Forall box tr ->
  inner M fc mma conser innmax fuel rem g tr = Ok r -> box (fst r) /\ Forall box (snd r).
Proof.
  intros fuel rem; induction rem; intros g tr r Ho Ht H; cbn [inner] in H.
  - destruct (backtrack _ _ _ _ _ _ _ _) as [q|] eqn:E; [|discriminate]. cbn [bind] in H.
    injection H as <-. destruct Ho as [Ho|Ho].
    + eapply backtrack_box in E; eauto; try lra. apply Forall_app; auto.
    + apply backtrack_none in E; auto. subst q. simpl. split; auto. apply Forall_app; auto.
  - destruct (backtrack _ _ _ _ _ _ _ _) as [q|] eqn:E; [|discriminate]. cbn [bind] in H.
    assert (Q : box (fst q) /\ Forall box (snd q)).
    { destruct Ho as [Ho|Ho].
      + eapply backtrack_box in E; eauto; try lra. apply Forall_app; auto.
      + apply backtrack_none in E; auto. subst q. simpl. split; auto. apply Forall_app; auto. }
    destruct (conser _ _ _).
    + injection H as <-. exact Q.
    + apply IHrem in H; auto. apply Q.
Qed.

Lemma outer_shape : forall g g' t, OUTER g = Ok (g', t) ->
  exists r buf conv, nrel > 0 /\
    inner M fc mma conser innmax bfuel innmax
      (mkG (S (g_iter g)) (g_x g) (g_old1 g) (g_old2 g) (f0 (g_x g)) (g_f0s g)
           (g_trace g ++ [g_x g]) (g_objs g)) (g_trace g ++ [g_x g]) = Ok r /\
    set (g_f0s g) (g_iter g mod nrel) (f0 (fst r)) = Ok buf /\
    rel_change nrel geps buf = Ok conv /\
    g' = mkG (S (g_iter g)) (fst r) (g_x g) (g_old1 g) (f0 (fst r)) buf (snd r)
             (g_objs g ++ [f0 (fst r)]) /\
    t = ((S (g_iter g) =? max_iters) || conv)%bool.
Proof.
  intros g g' t H. unfold outer in H. cbv zeta in H.
  match type of H with bind ?m _ = _ => destruct m as [r|] eqn:E1 end; [|discriminate].
  cbn [bind] in H. destruct (nrel =? 0) eqn:En; [discriminate|]. apply Nat.eqb_neq in En.
  match type of H with bind ?m _ = _ => destruct m as [buf|] eqn:E2 end; [|discriminate].
  cbn [bind] in H.
  match type of H with bind ?m _ = _ => destruct m as [conv|] eqn:E3 end; [|discriminate].
  cbn [bind] in H. injection H as <- <-.
  exists r, buf, conv. replace (S (g_iter g) - 1) with (g_iter g) in E2 by lia.
  repeat split; auto. lia.
Qed.

Lemma reach_box : forall x0 g,
  box x0 -> (box (fun _ => 0%R) \/
             forall g k tr, g_iter g = 1 -> (fc (mma g k tr) 0 <= 100)%R) ->
  REACH x0 g ->
  box (g_x g) /\ (g_iter g > 0 -> box (g_old1 g)) /\ Forall box (g_trace g) /\
  (g_iter g = 0 -> g_old1 g = (fun _ => 0%R)).
Proof.
  intros x0 g Hx0 Hg H. induction H as [|g g' t H IH E].
  - simpl. repeat split; auto; try lia. apply Hx0; auto. apply Hx0; auto.
  - destruct IH as [Bx [Bo [Bt Z]]].
    destruct (outer_shape _ _ _ E) as [r [buf [conv [Hn [E1 [E2 [E3 [-> _]]]]]]]].
    cbn [g_x g_old1 g_trace g_iter].
    assert (Q : box (fst r) /\ Forall box (snd r)).
    { eapply inner_box; [| |exact E1]; cbn [g_old1].
      - destruct (g_iter g) eqn:Ei.
        + rewrite Z by auto. destruct Hg as [Hg|Hg]; [now left|]. right. intros. apply Hg.
          reflexivity.
        + left. apply Bo. lia.
      - apply Forall_app; auto. }
    destruct Q. repeat split; auto; try lia; apply H0 || apply Bx; auto.
Qed.
End Box.

Lemma loop_reach : forall x0 fuel g g', REACH x0 g -> LOOP fuel bfuel g = Ok g' -> REACH x0 g'.
Proof.
  intros x0 fuel; induction fuel; intros g g' Hr H; simpl in H; [discriminate|].
  destruct (OUTER g) as [[g1 t]|] eqn:E; [|discriminate]. cbn [bind fst snd] in H.
  assert (REACH x0 g1) by (eapply greach_step; eauto).
  destruct t; [injection H as <-; auto|eauto].
Qed.

(** ** The objective buffer *)
Lemma reach_buffer : forall x0 g, REACH x0 g ->
  List.length (g_objs g) = g_iter g /\ len (g_f0s g) = nrel /\
  (forall k, k < g_iter g -> g_iter g <= k + nrel ->
     cell (g_f0s g) (k mod nrel) = nth k (g_objs g) 0%R) /\
  (forall q, g_iter g <= q -> cell (g_f0s g) q = 0%R \/ nrel <= q).
Proof.
  intros x0 g H. induction H as [|g g' t H IH E].
  - simpl. repeat split; auto; intros; lia.
  - destruct IH as [L [Lb [C Z]]].
    destruct (outer_shape _ _ _ E) as [r [buf [conv [Hn [E1 [E2 [E3 [-> _]]]]]]]].
    cbn [g_iter g_objs g_f0s].
    assert (Hm : g_iter g mod nrel < nrel) by (apply Nat.mod_upper_bound; lia).
    rewrite set_ok in E2 by lia. injection E2 as <-. cbn [len cell].
    repeat split; auto.
    + rewrite app_length. simpl. lia.
    + intros k Hk Hk2. unfold upd. destruct (Nat.eq_dec k (g_iter g)) as [->|Ne].
      * rewrite Nat.eqb_refl. rewrite app_nth2 by lia. rewrite L, Nat.sub_diag. reflexivity.
      * rewrite app_nth1 by lia.
        replace (k mod nrel =? g_iter g mod nrel) with false.
        { apply C; lia. }
        symmetry. apply Nat.eqb_neq. intro K.
        pose proof (Nat.div_mod k nrel ltac:(lia)).
        pose proof (Nat.div_mod (g_iter g) nrel ltac:(lia)).
        rewrite K in H0.
        assert (k / nrel < g_iter g / nrel \/ g_iter g / nrel <= k / nrel) by lia. nia.
    + intros q Hq. unfold upd. destruct (Nat.ltb_spec q nrel); [|lia]. left.
      replace (q =? g_iter g mod nrel) with false.
      * destruct (Z q); auto; lia.
      * symmetry. apply Nat.eqb_neq. rewrite Nat.mod_small by lia. lia.
Qed.

Lemma rel_change_spec : forall a, len a = nrel -> nrel > 0 ->
  exists b, rel_change nrel geps a = Ok b /\
    (b = true <-> forall i, i < nrel - 1 -> agrees geps (cell a (nrel - 1)) (cell a i)).
Proof.
  intros a L Hn. unfold rel_change. rewrite get_ok by lia. cbn [bind].
  set (c := cell a (nrel - 1)).
  destruct (loop_inv (fun k b => b = true <-> forall i, i < k -> agrees geps c (cell a i))
    (nrel - 1) (fun i b => v <- get a i ;;
      Ok (b && (if rltb (sqrt geps) c then rltb (Rabs (v - c) / Rabs c) geps
              else rltb (Rabs (v - c)) geps))%bool) true) as [b [E H]].
  - split; auto. intros _ i Hi. lia.
  - intros k b Hk IH. rewrite get_ok by lia. cbn [bind]. eexists. split; [reflexivity|].
    assert (G : (if rltb (sqrt geps) c then rltb (Rabs (cell a k - c) / Rabs c) geps
                 else rltb (Rabs (cell a k - c)) geps) = true <-> agrees geps c (cell a k)).
    { unfold agrees. unfold rltb at 1. destruct (Rlt_dec (sqrt geps) c); apply rltb_true. }
    rewrite andb_true_iff, G, IH. split.
    + intros [A B] i Hi. destruct (Nat.eq_dec i k); [subst; auto|]. apply A. lia.
    + intro A. split; auto.
  - exists b. split; auto.
Qed.

Lemma agrees_refl : forall c, (0 < geps)%R -> agrees geps c c.
Proof.
  intros c H. unfold agrees. rewrite Rminus_eq_0, Rabs_R0. destruct (Rlt_dec _ _); auto.
  unfold Rdiv. rewrite Rmult_0_l. auto.
Qed.

(** Members of the last [nrel] recorded values are exactly the buffer cells once it is full. *)
Lemma lastn_nth : forall (l : list R) n v, n <= List.length l -> In v (lastn n l) ->
  exists k, k < List.length l /\ List.length l <= k + n /\ nth k l 0%R = v.
Proof.
  intros l n v Hn H. unfold lastn in H. apply (In_nth _ _ 0%R) in H as [j [Hj Hv]].
  rewrite skipn_length in Hj.
  exists (List.length l - n + j). split; [lia|]. split; [lia|].
  rewrite <- Hv.
  assert (E : nth (List.length l - n + j) l 0%R =
    nth (List.length l - n + j)
      (firstn (List.length l - n) l ++ skipn (List.length l - n) l) 0%R)
    by now rewrite firstn_skipn.
  rewrite E, app_nth2; rewrite firstn_length; [|lia]. f_equal. lia.
Qed.

Lemma nth_lastn : forall (l : list R) n k, k < List.length l -> List.length l <= k + n ->
  In (nth k l 0%R) (lastn n l).
Proof.
  intros l n k Hk Hn. unfold lastn.
  assert (E : nth k l 0%R =
    nth k (firstn (List.length l - n) l ++ skipn (List.length l - n) l) 0%R)
    by now rewrite firstn_skipn.
  rewrite E, app_nth2; rewrite firstn_length; [|lia]. apply nth_In. rewrite skipn_length. lia.
Qed.

Lemma mod_surj : forall q t, q < nrel -> nrel <= t ->
  exists k, k < t /\ t <= k + nrel /\ k mod nrel = q.
Proof.
  intros q t Hq Ht.
  (* the window [t-nrel, t) contains every residue *)
  set (b := t - nrel). set (r := b mod nrel).
  assert (Hr : r < nrel) by (apply Nat.mod_upper_bound; lia).
  pose proof (Nat.div_mod b nrel ltac:(lia)) as D. fold r in D.
  destruct (Nat.le_gt_cases r q).
  - exists (b + (q - r)). split; [lia|]. split; [lia|].
    replace (b + (q - r)) with (q + (b / nrel) * nrel) by lia.
    rewrite Nat.mod_add by lia. apply Nat.mod_small; auto.
  - exists (b + (nrel - r + q)). split; [lia|]. split; [lia|].
    replace (b + (nrel - r + q)) with (q + (b / nrel + 1) * nrel) by lia.
    rewrite Nat.mod_add by lia. apply Nat.mod_small; auto.
Qed.

(** ** Termination *)
Lemma inner_total : forall rem g tr,
  (forall old1 xmma tr, exists r, backtrack M fc bfuel 0.02 old1 xmma xmma tr = Ok r) ->
  exists r, inner M fc mma conser innmax bfuel rem g tr = Ok r.
Proof.
  induction rem; intros g tr Hb; cbn [inner].
  - destruct (Hb (g_old1 g) (mma g (innmax - 0) tr) (tr ++ [mma g (innmax - 0) tr])) as [r Er].
    rewrite Er. cbn [bind]. eauto.
  - destruct (Hb (g_old1 g) (mma g (innmax - S rem) tr) (tr ++ [mma g (innmax - S rem) tr]))
      as [r Er]. rewrite Er. cbn [bind]. destruct (conser _ _ _); eauto.
Qed.

Lemma outer_total : forall x0 g, nrel > 0 ->
  (forall old1 xmma tr, exists r, backtrack M fc bfuel 0.02 old1 xmma xmma tr = Ok r) ->
  REACH x0 g -> exists g' t, OUTER g = Ok (g', t).
Proof.
  intros x0 g Hn Hb Hr. destruct (reach_buffer x0 g Hr) as [_ [Lb _]].
  unfold outer. cbv zeta.
  match goal with |- context [inner _ _ _ _ _ _ ?a ?b ?c] => destruct (inner_total a b c Hb) as [r Er] end.
  rewrite Er. cbn [bind]. replace (nrel =? 0) with false by (symmetry; apply Nat.eqb_neq; lia).
  rewrite set_ok.
  2:{ rewrite Lb. apply Nat.mod_upper_bound. lia. }
  cbn [bind]. match goal with |- context [rel_change nrel geps ?a] =>
    destruct (rel_change_spec a) as [b [Eb _]] end; auto.
  rewrite Eb. cbn [bind]. eauto.
Qed.

Lemma loop_total : forall x0 k g, nrel > 0 ->
  (forall old1 xmma tr, exists r, backtrack M fc bfuel 0.02 old1 xmma xmma tr = Ok r) ->
  REACH x0 g -> g_iter g + S k = max_iters ->
  exists g', forall extra, LOOP (S k + extra) bfuel g = Ok g' /\ g_iter g' <= max_iters.
Proof.
  intros x0 k; induction k; intros g Hn Hb Hr Hi;
    destruct (outer_total x0 g Hn Hb Hr) as [g1 [t E]];
    destruct (outer_shape _ _ _ E) as [r [buf [conv [_ [_ [_ [_ [Eg Et]]]]]]]].
  - assert (t = true).
    { rewrite Et. replace (S (g_iter g) =? max_iters) with true
        by (symmetry; apply Nat.eqb_eq; lia). reflexivity. }
    exists g1. intro extra. cbn [gcmma_loop Nat.add]. rewrite E. cbn [bind fst snd]. rewrite H.
    split; auto. subst g1. cbn [g_iter]. lia.
  - destruct t.
    + exists g1. intro extra. cbn [gcmma_loop Nat.add]. rewrite E. cbn [bind fst snd].
      split; auto. subst g1. cbn [g_iter]. lia.
    + destruct (IHk g1 Hn Hb) as [g' H'].
      * eapply greach_step; eauto.
      * subst g1. cbn [g_iter]. lia.
      * exists g'. intro extra. change (S (S k) + extra) with (S (S k + extra)).
        cbn [gcmma_loop]. rewrite E. cbn [bind fst snd]. apply H'.
Qed.
End G.
