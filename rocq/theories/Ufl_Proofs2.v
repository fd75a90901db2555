(** Lemmas for C192: the crossover points of the UG solver. *)
From Coq Require Import Reals List Arith Lia Lra Bool Permutation Sorted.
From Verif Require Import Base BaseLemmas Flut_Model Flut_Spec Flut_Proofs Flut_Proofs2 Ufl_Model Ufl_Spec.
Import ListNotations.
Open Scope R_scope.

Lemma kget_some s i r : kget s i = Ok r -> nth_error (k_roots s) i = Some r /\ kg i s = k_g r /\ kvel i s = k_V r.
Proof. unfold kget, kg, kvel. destruct (nth_error _ _); intros E; inversion E; auto. Qed.
Lemma kget_total N s i : length (k_roots s) = N -> (i < N)%nat -> exists r, kget s i = Ok r.
Proof. intros H Hi. unfold kget. destruct (nth_error (k_roots s) i) eqn:E; eauto. apply nth_error_None in E. lia. Qed.
Lemma kxinsert_perm k x m : Permutation (kxinsert k x m) ((k, x) :: m).
Proof. induction m as [|[j y] m IH]; simpl; auto. destruct (rlt k j); auto. rewrite IH. apply perm_swap. Qed.
Lemma kxinsert_sorted k x m : in_order m -> in_order (kxinsert k x m).
Proof.
  unfold in_order. induction m as [|[j y] m IH]; simpl; intros H.
  - constructor; constructor.
  - apply StronglySorted_inv in H. destruct H as (H1 & H2). destruct (rlt_spec k j).
    + constructor; [constructor; auto|]. constructor; simpl; [lra|]. eapply Forall_impl; [|exact H2]. simpl; intros; lra.
    + constructor; auto. rewrite (kxinsert_perm k x m). constructor; auto. simpl; lra.
Qed.

(** ** what each step adds *)
Definition badb (i : nat) (s : ksol) : bool := match nth_error (k_roots s) i with Some r => k_bad r | None => true end.
Definition exam (i : nat) (a b : ksol) : bool :=
  negb (badb i a) && (negb (badb i b) && (rlt tol (Rabs (k_ref a)) || rlt tol (Rabs (k_ref b))) &&
  (rlt (Rabs (kg i a)) max_g && rlt (Rabs (kg i b)) max_g)).
Definition cross_exp (i : nat) (a b : ksol) : kxmap :=
  if exam i a b then
    if rle (kg i a) 0 && rlt 0 (kg i b) then [(kvel i a, mkKx a b i None)]
    else if rlt 0 (kg i a) && rle (kg i b) 0 then [(kvel i b, mkKx b a i None)] else []
  else [].
Fixpoint crosses_exp (i : nat) (l : list ksol) : kxmap :=
  match l with a :: ((b :: _) as t) => cross_exp i a b ++ crosses_exp i t | _ => [] end.
Definition high_exp (inc : bool) (i : nat) (l : list ksol) : kxmap :=
  match l with
  | a :: b :: _ => if exam i a b && rlt 0 (kg i a) && inc then [(kvel i a, mkKx a a i None)] else []
  | _ => [] end.
Definition div_exp (s0 : ksol) (i : nat) : kxmap :=
  match nth_error (k_roots s0) i with
  | Some r => if negb (k_bad r) && rlt (Rabs (k_g r)) tol then [(k_V r, mkKx s0 s0 i (Some r))] else []
  | None => [] end.
Definition umode_exp (inc neg : bool) (i : nat) (l : list ksol) : kxmap :=
  if neg then [] else crosses_exp i l ++ high_exp inc i l.

Lemma if_process_exam neg i a b p : ug_if_process neg i a (Some b) = Ok p -> p = exam i a b && negb neg.
Proof.
  unfold ug_if_process, exam. destruct (kget a i) as [ra|] eqn:E1; simpl; [|discriminate]. apply kget_some in E1. destruct E1 as (N1 & G1 & _).
  unfold badb at 1. rewrite N1, G1. destruct (k_bad ra); simpl; [intros E; inversion E; auto|].
  destruct (kget b i) as [rb|] eqn:E2; simpl; [|discriminate]. apply kget_some in E2. destruct E2 as (N2 & G2 & _).
  unfold badb. rewrite N2, G2. intros E; inversion E; auto.
Qed.
Lemma process_exp neg i a b xs xs' : ug_process neg i a b xs = Ok xs' ->
  Permutation xs' ((if neg then [] else cross_exp i a b) ++ xs) /\ (in_order xs -> in_order xs').
Proof.
  unfold ug_process, cross_exp. destruct (ug_if_process _ _ _ _) as [p|] eqn:Ep; simpl bind; [|discriminate].
  apply if_process_exam in Ep. subst p. destruct (exam i a b); destruct neg; simpl; try (intros E; inversion E; split; auto; fail).
  destruct (kget a i) as [rl|] eqn:E1; simpl; [|discriminate]. destruct (kget b i) as [ru|] eqn:E2; simpl; [|discriminate].
  apply kget_some in E1, E2. destruct E1 as (_ & -> & ->), E2 as (_ & -> & ->).
  intros E; inversion E. destruct (_ && _); [split; [apply kxinsert_perm|apply kxinsert_sorted]|].
  destruct (_ && _); [split; [apply kxinsert_perm|apply kxinsert_sorted]|auto].
Qed.
Lemma pairs_perm neg i l : forall xs xs', ug_pairs neg i l xs = Ok xs' ->
  Permutation xs' ((if neg then [] else crosses_exp i l) ++ xs) /\ (in_order xs -> in_order xs').
Proof.
  induction l as [|a l IH]; intros xs xs'.
  - simpl. intros E; inversion E. destruct neg; auto.
  - destruct l as [|b l]; [simpl; intros E; inversion E; destruct neg; auto|].
    cbn [ug_pairs crosses_exp]. destruct (ug_process neg i a b xs) as [x1|] eqn:E1; simpl bind; [|discriminate].
    intros E. apply process_exp in E1. apply IH in E. destruct E1 as (P1 & S1), E as (P2 & S2).
    split; [|auto]. rewrite P2, P1. destruct neg; simpl; auto. rewrite !app_assoc. apply Permutation_app_tail. apply Permutation_app_comm.
Qed.
Lemma exam_bound i a b : exam i a b = true -> kg i a < max_g.
Proof.
  unfold exam. rewrite !andb_true_iff. intros (_ & _ & H & _). destruct (rlt_spec (Rabs (kg i a)) max_g) as [H'|]; [|discriminate].
  eapply Rle_lt_trans; [apply Rle_abs|exact H'].
Qed.
Lemma highest_perm inc neg i l xs xs' : ug_highest inc neg i l xs = Ok xs' ->
  Permutation xs' ((if neg then [] else high_exp inc i l) ++ xs) /\ (in_order xs -> in_order xs').
Proof.
  unfold ug_highest. destruct l as [|a [|b t]]; [intros E; inversion E; destruct neg; auto| |].
  - simpl. unfold ug_if_process. destruct (kget a i) as [ra|]; simpl; [|discriminate]. destruct (k_bad ra); simpl; [|discriminate].
    intros E; inversion E; destruct neg; auto.
  - cbn [hd_error high_exp]. destruct (ug_if_process _ _ _ _) as [p|] eqn:Ep; simpl bind; [|discriminate].
    destruct (kget a i) as [ra|] eqn:E1; simpl bind; [|discriminate]. apply kget_some in E1. destruct E1 as (_ & E1 & ->). rewrite <- E1.
    apply if_process_exam in Ep. subst p. intros E; inversion E. clear E. destruct neg; rewrite ?andb_false_r, ?andb_true_r; simpl; auto.
    destruct (exam i a b) eqn:Ex; simpl; auto. apply exam_bound in Ex. destruct (rlt_spec (kg i a) max_g); [|lra]. rewrite andb_true_r.
    destruct (rlt 0 (kg i a)), inc; simpl; auto. split; [apply kxinsert_perm|apply kxinsert_sorted].
Qed.
Lemma divergence_perm s0 i xs xs' : ug_divergence s0 i xs = Ok xs' ->
  Permutation xs' (div_exp s0 i ++ xs) /\ (in_order xs -> in_order xs').
Proof.
  unfold ug_divergence, div_exp. destruct (kget s0 i) as [r|] eqn:E1; simpl; [|discriminate]. apply kget_some in E1. destruct E1 as (-> & _).
  intros E; inversion E. destruct (_ && _); [split; [apply kxinsert_perm|apply kxinsert_sorted]|auto].
Qed.
Lemma kmax_spec i l : forall mg m, kmax i l mg = Ok m -> (m < tol <-> mg < tol /\ Forall (fun s => Rabs (kg i s) < tol) l).
Proof.
  induction l as [|s l IH]; intros mg m; simpl.
  - intros E; inversion E. split; auto; tauto.
  - destruct (kget s i) as [r|] eqn:Er; simpl; [|discriminate]. apply kget_some in Er. destruct Er as (_ & Eg & _).
    intros E. apply IH in E. rewrite E, Forall_cons_iff, Eg. destruct (rlt_spec mg (Rabs (k_g r))); split; intros; repeat split; try tauto; lra.
Qed.
Lemma kneglect_spec sols i b : kneglect sols i = Ok b -> (b = true <-> ~ kretained sols i).
Proof.
  unfold kneglect. destruct (kmax i sols 0) as [m|] eqn:E; simpl; [|discriminate]. apply kmax_spec in E.
  intros Eb; inversion Eb. clear Eb. assert (T0 : 0 < tol) by (unfold tol; lra). unfold kretained.
  destruct (rlt_spec m tol) as [H|H]; split; intros K; auto; try discriminate.
  - intros (s & Hs & Hg). apply E in H. destruct H as (_ & F). rewrite Forall_forall in F. specialize (F s Hs). lra.
  - exfalso. apply H, E. split; auto. apply Forall_forall. intros s Hs. apply Rnot_le_lt. intros Hle. apply K. eauto.
Qed.
Lemma knegs_loop sols : forall n negs, loop n (fun i acc => b <- kneglect sols i ;; Ok (acc ++ [b])) [] = Ok negs ->
  length negs = n /\ forall i, (i < n)%nat -> kneglect sols i = Ok (nth i negs false).
Proof.
  induction n as [|n IH]; intros negs; simpl.
  - intros E; inversion E; split; auto; lia.
  - destruct (loop n _ []) as [l|] eqn:E1; simpl; [|discriminate]. destruct (IH _ eq_refl) as (L & H).
    destruct (kneglect sols n) as [b|] eqn:E2; simpl; [|discriminate]. intros E; inversion E.
    split; [rewrite app_length; simpl; lia|]. intros i Hi. destruct (Nat.eq_dec i n) as [->|].
    + rewrite app_nth2 by lia. replace (n - length l)%nat with 0%nat by lia. exact E2.
    + rewrite app_nth1 by lia. apply H. lia.
Qed.
Definition divs (s0 : ksol) : kxmap := if rlt (Rabs (k_ref s0)) tol then flat_map (div_exp s0) (seq 0 (length (k_roots s0))) else [].
Lemma ug_identify_perm inc m xs : ug_identify inc m = Ok xs ->
  exists s0 t negs, map snd m = s0 :: t /\ k_roots s0 <> [] /\
    (forall i, (i < length (k_roots s0))%nat -> kneglect (map snd m) i = Ok (nth i negs false)) /\
    in_order xs /\
    Permutation xs (divs s0 ++ flat_map (fun i => umode_exp inc (nth i negs false) i (rev (map snd m))) (seq 0 (length (k_roots s0)))).
Proof.
  unfold ug_identify. destruct (map snd m) as [|s0 t] eqn:Em; [discriminate|]. rewrite <- Em.
  unfold assert_. destruct (Nat.eqb_spec (length (k_roots s0)) 0) as [|Hn]; cbn [negb]; [discriminate|].
  destruct (loop _ _ []) as [negs|] eqn:En; cbn [bind]; [|discriminate].
  apply knegs_loop in En. destruct En as (Ln & Hneg).
  match goal with |- (_ <- ?e ;; _) = _ -> _ => destruct e as [x0|] eqn:E0 end; cbn [bind]; [|discriminate]. intros E.
  exists s0, t, negs. split; [auto|]. split; [destruct (k_roots s0); simpl in *; congruence|]. split; [auto|].
  assert (D : in_order x0 /\ Permutation x0 (divs s0)).
  { unfold divs. destruct (rlt (Rabs (k_ref s0)) tol); [|inversion E0; split; constructor].
    clear E Hneg Ln Hn. revert x0 E0. generalize (length (k_roots s0)) as n. induction n as [|n IH]; intros x0 E0.
    - simpl in E0. inversion E0. split; constructor.
    - cbn [loop] in E0. destruct (loop n (ug_divergence s0) []) as [x1|]; simpl bind in E0; [|discriminate].
      destruct (IH _ eq_refl) as (S1 & P1). apply divergence_perm in E0. destruct E0 as (P2 & S2). split; [auto|].
      rewrite P2, P1. rewrite seq_S, flat_map_app. simpl. rewrite app_nil_r. apply Permutation_app_comm. }
  destruct D as (S0 & P0). clear Ln Hneg Em Hn E0. revert xs E. generalize (length (k_roots s0)) as n. intros n.
  induction n as [|n IH]; intros xs E.
  - simpl in E. inversion E; subst. simpl. rewrite app_nil_r. auto.
  - cbn [loop] in E. match type of E with context [loop n ?b x0] => destruct (loop n b x0) as [x1|] eqn:E1 end; simpl bind in E; [|discriminate].
    destruct (ug_pairs _ _ _ _) as [x2|] eqn:E2; simpl bind in E; [|discriminate].
    destruct (IH _ eq_refl) as (S1 & P1). apply pairs_perm in E2. apply highest_perm in E.
    destruct E2 as (P2 & S2), E as (P3 & S3). split; [auto|].
    rewrite P3, P2, P1. rewrite seq_S, flat_map_app. simpl. rewrite app_nil_r. unfold umode_exp at 3.
    destruct (nth n negs false); simpl; [now rewrite app_nil_r|].
    match goal with |- Permutation (?H ++ ?C ++ ?D ++ ?F) _ => generalize H C D F; intros h c d f end.
    rewrite (app_assoc h c). rewrite (Permutation_app_comm (h ++ c) (d ++ f)). rewrite <- (app_assoc d f). apply Permutation_app_head, Permutation_app_head, Permutation_app_comm.
Qed.

(** ** in words *)
Lemma badb_physical i s : badb i s = false <-> physical i s.
Proof.
  unfold badb, physical. destruct (nth_error (k_roots s) i) as [r|]; split.
  - eauto.
  - intros (r' & E & H). inversion E; subst; auto.
  - discriminate.
  - intros (r' & E & _). discriminate.
Qed.
Lemma exam_spec i a b : exam i a b = true <-> examined i a b.
Proof.
  unfold exam, examined, max_g. rewrite <- !badb_physical.
  destruct (badb i a), (badb i b), (rlt_spec tol (Rabs (k_ref a))), (rlt_spec tol (Rabs (k_ref b))), (rlt_spec (Rabs (kg i a)) (3 / 4)), (rlt_spec (Rabs (kg i b)) (3 / 4));
    simpl; split; intros H; try discriminate; try tauto; try (destruct H as (H1 & H2 & _); discriminate); repeat split; auto.
Qed.
Lemma in_cross_exp i a b k x : In (k, x) (cross_exp i a b) <-> examined i a b /\ kcrossing i a b k x.
Proof.
  rewrite <- exam_spec. unfold cross_exp, kcrossing. destruct (exam i a b); [|simpl; split; [tauto|intros (H & _); discriminate]].
  destruct (rle_spec (kg i a) 0), (rlt_spec 0 (kg i b)), (rlt_spec 0 (kg i a)), (rle_spec (kg i b) 0); simpl; try lra;
  (split; [intros H; repeat (destruct H as [H|H]; try (inversion H; subst)); try tauto; split; auto; try tauto
          |intros (_ & [(Hg & -> & ->)|(Hg & -> & ->)]); try (left; reflexivity); try lra; tauto]).
Qed.
Lemma in_crosses_exp i l k x : In (k, x) (crosses_exp i l) <-> exists a b, neighbours l a b /\ examined i a b /\ kcrossing i a b k x.
Proof.
  induction l as [|a l IH].
  - simpl. split; [tauto|]. intros (a & b & (l1 & l2 & E) & _). destruct l1; discriminate.
  - destruct l as [|b l].
    + simpl. split; [tauto|]. intros (a' & b' & (l1 & l2 & E) & _). destruct l1 as [|? [|]]; discriminate.
    + cbn [crosses_exp]. rewrite in_app_iff, IH, in_cross_exp. split.
      * intros [(F & C)|(a' & b' & (l1 & l2 & E) & R)].
        -- exists a, b. split; [exists [], l; reflexivity|auto].
        -- exists a', b'. split; [exists (a :: l1), l2; simpl; now rewrite E|auto].
      * intros (a' & b' & (l1 & l2 & E) & R). destruct l1 as [|c l1].
        -- simpl in E. inversion E; subst. left; auto.
        -- simpl in E. inversion E; subst. right. exists a', b'. split; [exists l1, l2; auto|auto].
Qed.
Lemma neighbours_rev l a b : neighbours (rev l) a b <-> neighbours l b a.
Proof.
  assert (X : forall l a b, neighbours (rev l) a b -> neighbours l b a).
  { intros l' a' b' (l1 & l2 & E). exists (rev l2), (rev l1). rewrite <- (rev_involutive l'), E, rev_app_distr. simpl. now rewrite <- !app_assoc. }
  split; [apply X|]. intros H. apply X. now rewrite rev_involutive.
Qed.
Lemma examined_sym i a b : examined i a b -> examined i b a.
Proof. unfold examined. tauto. Qed.
Lemma kcrossing_sym i a b k x : kcrossing i a b k x -> kcrossing i b a k x.
Proof. unfold kcrossing. tauto. Qed.
Lemma in_divs s0 k x : In (k, x) (divs s0) <-> exists i r, nth_error (k_roots s0) i = Some r /\ Rabs (k_ref s0) < tol /\ k_bad r = false /\
  Rabs (k_g r) < tol /\ k = k_V r /\ x = mkKx s0 s0 i (Some r).
Proof.
  unfold divs. destruct (rlt_spec (Rabs (k_ref s0)) tol) as [H|H].
  - rewrite in_flat_map. split.
    + intros (i & Hi & Hin). unfold div_exp in Hin. destruct (nth_error (k_roots s0) i) as [r|] eqn:En; [|destruct Hin].
      destruct (k_bad r) eqn:Eb; simpl in Hin; [destruct Hin|]. destruct (rlt_spec (Rabs (k_g r)) tol); [|destruct Hin].
      destruct Hin as [E|[]]. inversion E; subst. exists i, r. auto 8.
    + intros (i & r & En & _ & Eb & Hg & -> & ->). exists i. split.
      * apply in_seq. split; [lia|]. simpl. apply nth_error_Some. congruence.
      * unfold div_exp. rewrite En, Eb. simpl. destruct (rlt_spec (Rabs (k_g r)) tol); [now left|lra].
  - split; [intros []|]. intros (i & r & _ & H' & _). lra.
Qed.
Lemma in_high_exp inc i l k x : In (k, x) (high_exp inc i l) <->
  exists a b t, l = a :: b :: t /\ inc = true /\ examined i a b /\ 0 < kg i a /\ k = kvel i a /\ x = mkKx a a i None.
Proof.
  unfold high_exp. destruct l as [|a [|b t]]; try (split; [intros []|intros (? & ? & ? & E & _); discriminate]).
  destruct (exam i a b) eqn:Ex, (rlt_spec 0 (kg i a)), inc; simpl; split; try tauto;
    try (intros (a' & b' & t' & E & Ei & Hx & Hg & _); inversion E; subst; try discriminate; try (apply exam_spec in Hx; congruence); lra).
  - intros [E|[]]. inversion E; subst. exists a, b, t. apply exam_spec in Ex. auto 8.
  - intros (a' & b' & t' & E & _ & _ & _ & -> & ->). inversion E; subst. now left.
Qed.
Lemma ug_identify_iff inc m xs : ug_identify inc m = Ok xs ->
  exists s0 t, map snd m = s0 :: t /\ in_order xs /\ forall k x, In (k, x) xs <->
    (exists i r, nth_error (k_roots s0) i = Some r /\ Rabs (k_ref s0) < tol /\ k_bad r = false /\ Rabs (k_g r) < tol /\
        k = k_V r /\ x = mkKx s0 s0 i (Some r)) \/
    (exists i a b, (i < length (k_roots s0))%nat /\ kretained (map snd m) i /\ neighbours (map snd m) a b /\ examined i a b /\ kcrossing i a b k x) \/
    (exists i a b l, (i < length (k_roots s0))%nat /\ kretained (map snd m) i /\ map snd m = l ++ [b; a] /\ inc = true /\
        examined i a b /\ 0 < kg i a /\ k = kvel i a /\ x = mkKx a a i None).
Proof.
  intros E. apply ug_identify_perm in E. destruct E as (s0 & t & negs & Em & Hn & Hneg & Ho & P). exists s0, t. split; [auto|]. split; [auto|].
  intros k x. assert (Q : In (k, x) xs <-> In (k, x) (divs s0 ++ flat_map (fun i => umode_exp inc (nth i negs false) i (rev (map snd m))) (seq 0 (length (k_roots s0))))).
  { split; apply Permutation_in; [exact P|symmetry; exact P]. }
  rewrite Q, in_app_iff, in_divs, in_flat_map. apply or_iff_compat_l. split.
  - intros (i & Hi & Hin). apply in_seq in Hi. assert (Li : (i < length (k_roots s0))%nat) by lia. specialize (Hneg i Li). apply kneglect_spec in Hneg.
    unfold umode_exp in Hin. destruct (nth i negs false); [destruct Hin|].
    assert (Hr : kretained (map snd m) i).
    { apply Classical_Prop.NNPP. intros N. apply Hneg in N. discriminate. }
    apply in_app_or in Hin. destruct Hin as [Hin|Hin].
    + left. apply in_crosses_exp in Hin. destruct Hin as (a & b & Hab & Hx & Hc). apply (proj1 (neighbours_rev _ _ _)) in Hab. exists i, b, a.
      exact (Logic.conj Li (Logic.conj Hr (Logic.conj Hab (Logic.conj (examined_sym _ _ _ Hx) (kcrossing_sym _ _ _ _ _ Hc))))).
    + right. apply in_high_exp in Hin. destruct Hin as (a & b & t' & El & Hx). exists i, a, b, (rev t').
      split; [auto|]. split; [auto|]. split; [|auto]. rewrite <- (rev_involutive (map snd m)), El. simpl. rewrite <- app_assoc. reflexivity.
  - intros [(i & a & b & Li & Hr & Hab & Hx & Hc)|(i & a & b & l & Li & Hr & El & Hx)]; exists i; (split; [apply in_seq; lia|]);
      specialize (Hneg i Li); apply kneglect_spec in Hneg; unfold umode_exp; (destruct (nth i negs false); [exfalso; apply (proj1 Hneg eq_refl); auto|]);
      apply in_or_app.
    + left. apply in_crosses_exp. exists b, a. exact (Logic.conj (proj2 (neighbours_rev _ _ _) Hab) (Logic.conj (examined_sym _ _ _ Hx) (kcrossing_sym _ _ _ _ _ Hc))).
    + right. apply in_high_exp. exists a, b, (rev l). split; [|auto]. rewrite El, rev_app_distr. reflexivity.
Qed.
