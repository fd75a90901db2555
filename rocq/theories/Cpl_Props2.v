(** C177: the registry of couplings.  C178: the search for couplings.  C179: rigid body modes. *)
From Coq Require Import Reals List Arith Bool Lia Lra.
From Verif Require Import Base RBool Cpl_Model Cpl_Spec Cpl_Proofs Cpl_Props.
Import ListNotations.
Open Scope R_scope.

Lemma tied_app : forall a b, tied (a ++ b) = tied a ++ tied b.
Proof. intros. apply map_app. Qed.
Lemma has_in : forall A k (l : list (nat * A)), has k l = true <-> In k (map fst l).
Proof.
  intros A k l. unfold has. rewrite existsb_exists. split.
  - intros [e [I E]]. apply Nat.eqb_eq in E. subst. apply in_map. exact I.
  - intros H. apply in_map_iff in H. destruct H as [e [E I]]. exists e. split; [exact I|]. apply Nat.eqb_eq. exact E.
Qed.
Definition reg (rot : bool) (cs : list (nat * list nat)) : list (nat * (list nat * bool)) :=
  map (fun c => (fst c, (snd c, rot))) cs.
Lemma reg_keys : forall rot cs, map fst (reg rot cs) = map fst cs.
Proof. intros. unfold reg. rewrite map_map. reflexivity. Qed.
Lemma add_all_ok : forall dbg rot cs s, k_started s = false -> NoDup (map fst (k_map s) ++ map fst cs) ->
  add_all dbg s cs rot = Ok (mkK false (k_map s ++ reg rot cs)).
Proof.
  intros dbg rot. induction cs as [|[sl ms] cs IH]; intros s F N; cbn [add_all].
  - rewrite app_nil_r. destruct s. cbn in F. subst. reflexivity.
  - assert (X : ~ In sl (map fst (k_map s))).
    { cbn in N. apply NoDup_remove_2 in N. intros H. apply N. apply in_or_app. left. exact H. }
    unfold add_one. rewrite F. cbn [orb].
    destruct (has sl (k_map s)) eqn:Hs; [apply has_in in Hs; contradiction|]. rewrite andb_false_r. cbn [bind].
    rewrite put_new by exact X. rewrite IH; cbn [k_map k_started].
    + rewrite <- app_assoc. reflexivity.
    + reflexivity.
    + rewrite map_app, <- app_assoc. exact N.
Qed.
(** Couplings of different slaves are all kept, in the order given, in both builds. *)
Theorem C177_all_kept : forall dbg rot cs, NoDup (map fst cs) -> add_all dbg k_start cs rot = Ok (mkK false (reg rot cs)).
Proof. intros. rewrite add_all_ok; auto. Qed.
Lemma add_all_dup : forall rot cs s, ~ NoDup (map fst (k_map s) ++ map fst cs) -> NoDup (map fst (k_map s)) ->
  add_all true s cs rot = Fault AssertFailed.
Proof.
  intros rot. induction cs as [|[sl ms] cs IH]; intros s D N.
  - exfalso. apply D. rewrite app_nil_r. exact N.
  - cbn [add_all]. unfold add_one. destruct (k_started s); [reflexivity|]. cbn [orb andb].
    destruct (has sl (k_map s)) eqn:Hs; [reflexivity|]. cbn [bind].
    assert (X : ~ In sl (map fst (k_map s))) by (intros H; apply has_in in H; congruence).
    apply IH; cbn [k_map].
    + rewrite put_new by exact X. rewrite map_app, <- app_assoc. exact D.
    + apply put_nodup. exact N.
Qed.
(** With assertions a slave that is given twice is refused. *)
Theorem C177_twice_refused : forall rot cs, ~ NoDup (map fst cs) -> add_all true k_start cs rot = Fault AssertFailed.
Proof. intros. apply add_all_dup; [exact H|constructor]. Qed.
(** Without assertions the second coupling of a slave silently replaces the first, whatever lies in between. *)
Lemma add_all_app : forall dbg rot a b s, add_all dbg s (a ++ b) rot = (s <- add_all dbg s a rot ;; add_all dbg s b rot).
Proof.
  intros dbg rot. induction a as [|[sl ms] a IH]; intros b s; [reflexivity|]. cbn [add_all app].
  destruct (add_one dbg s sl ms rot); cbn [bind]; [apply IH|reflexivity].
Qed.
Lemma add_all_release : forall rot cs s, exists s', add_all false s cs rot = Ok s' /\
  (NoDup (map fst (k_map s)) -> NoDup (map fst (k_map s'))).
Proof.
  intros rot. induction cs as [|[sl ms] cs IH]; intros s; [exists s; split; auto|]. cbn [add_all]. unfold add_one. cbn [andb bind].
  destruct (IH (mkK (k_started s) (put sl (ms, rot) (k_map s)))) as [s' [E N]]. exists s'. split; [exact E|].
  intros H. apply N. cbn [k_map]. apply put_nodup. exact H.
Qed.
Theorem C177_twice_refuted : forall rot cs sl ms ms', ms <> ms' -> In (sl, ms') cs ->
  exists s, add_all false k_start (cs ++ [(sl, ms)]) rot = Ok s /\
    In (sl, (ms, rot)) (k_map s) /\ ~ In (sl, (ms', rot)) (k_map s).
Proof.
  intros rot cs sl ms ms' D I. rewrite add_all_app.
  destruct (add_all_release rot cs k_start) as [s [E N]]. rewrite E. cbn [bind add_all]. unfold add_one. cbn [andb bind].
  eexists. split; [reflexivity|]. cbn [k_map]. specialize (N ltac:(constructor)). split.
  - apply put_find; [exact N|]. left. reflexivity.
  - intros X. apply put_find in X; [|exact N]. destruct X as [X|[_ X]]; [congruence|cbn in X; congruence].
Qed.
(** After the rows were read, a new coupling is refused with assertions and accepted without them. *)
Theorem C177_late_refused : forall s sl ms rot, k_started s = true -> add_one true s sl ms rot = Fault AssertFailed.
Proof. intros s sl ms rot H. unfold add_one. rewrite H. reflexivity. Qed.
Theorem C177_late_refuted : forall s sl ms rot, k_started s = true ->
  add_one false s sl ms rot = Ok (mkK true (put sl (ms, rot) (k_map s))).
Proof. intros s sl ms rot H. unfold add_one. rewrite H. reflexivity. Qed.

Lemma all_rows_ok : forall pos dofs d l, six dofs d -> (forall e, In e l -> NoDup (fst (snd e))) ->
  exists c, all_rows pos dofs l = Ok c /\
    tied c = flat_map (fun e => map (d (fst e)) (seq 0 (n_constrain (snd (snd e))))) l /\
    (forall x, In x c <-> exists e r, In e l /\ get_dof_constraint_row pos dofs (fst e) (fst (snd e)) (snd (snd e)) = Ok r /\ In x r).
Proof.
  intros pos dofs d l S. induction l as [|[sl [ms rot]] l IH]; intros N; cbn [all_rows].
  - exists []. split; [reflexivity|]. split; [reflexivity|]. intros x. split; [intros []|intros [e [r [[] _]]]].
  - destruct (C176_value pos dofs d sl ms rot S (N _ (or_introl eq_refl))) as [r [E [K _]]]. rewrite E. cbn [bind].
    destruct (IH (fun e I => N e (or_intror I))) as [c [E2 [K2 M]]]. rewrite E2. cbn [bind].
    eexists. split; [reflexivity|]. split; [rewrite tied_app, K, K2; destruct rot; reflexivity|].
    intros x. rewrite in_app_iff, M. split.
    + intros [X|[e [r' [I R]]]]; [exists (sl, (ms, rot)), r; cbn; auto|exists e, r'; split; [right; exact I|exact R]].
    + intros [e [r' [[I|I] [R X]]]]; [left; subst; cbn in R; rewrite E in R; injection R as <-; exact X|right; exists e, r'; auto].
Qed.
Lemma fold_len : forall (l : list (nat * (list nat * bool))) n,
  fold_left (fun n e => (n + n_constrain (snd (snd e)))%nat) l n = (n + list_sum (map (fun e => n_constrain (snd (snd e))) l))%nat.
Proof.
  assert (Q : forall a l, list_sum (a :: l) = (a + list_sum l)%nat) by reflexivity.
  induction l as [|e l IH]; intros n; cbn [fold_left map]; [cbn; lia|]. rewrite IH, Q. lia.
Qed.
Lemma flat_len : forall (d : nat -> nat -> nat) (l : list (nat * (list nat * bool))),
  length (flat_map (fun e => map (d (fst e)) (seq 0 (n_constrain (snd (snd e))))) l) = list_sum (map (fun e => n_constrain (snd (snd e))) l).
Proof. induction l as [|e l IH]; [reflexivity|]. cbn [flat_map map list_sum fold_right]. rewrite app_length, map_length, seq_length, IH. reflexivity. Qed.
(** Reading the rows of couplings of different slaves never fails: they are the rows of the single couplings, every dof
    has at most one row, and the couplings stay. *)
Theorem C177_rows : forall dbg pos dofs d rot cs, six dofs d -> NoDup (map fst cs) ->
  (forall c, In c cs -> NoDup (snd c)) ->
  exists l, get_constraint_rows pos dofs dbg (mkK false (reg rot cs)) = Ok (l, mkK true (reg rot cs)) /\
    NoDup (tied l) /\
    (forall k, In k (tied l) <-> exists c i, In c cs /\ (i < (if rot then 6 else 3))%nat /\ k = d (fst c) i) /\
    (forall x, In x l <-> exists c r, In c cs /\ get_dof_constraint_row pos dofs (fst c) (snd c) rot = Ok r /\ In x r).
Proof.
  intros dbg pos dofs d rot cs S N M.
  destruct (all_rows_ok pos dofs d (reg rot cs) S) as [l [E [K X]]].
  { intros e I. unfold reg in I. apply in_map_iff in I. destruct I as [c [<- I]]. cbn. apply M. exact I. }
  exists l. unfold get_constraint_rows. cbn [k_map]. rewrite E. cbn [bind].
  assert (L : length l = fold_left (fun n e => (n + n_constrain (snd (snd e)))%nat) (reg rot cs) 0%nat).
  { rewrite fold_len, <- (flat_len d), <- K. unfold tied. rewrite map_length. reflexivity. }
  rewrite <- L, Nat.eqb_refl, andb_false_r. split; [reflexivity|].
  assert (K' : tied l = flat_map (fun c => map (d (fst c)) (seq 0 (n_constrain rot))) cs).
  { rewrite K. unfold reg. clear. induction cs as [|c cs IH]; [reflexivity|]. cbn. f_equal. exact IH. }
  assert (B : (n_constrain rot <= 6)%nat) by (destruct rot; cbn; lia).
  split; [|split].
  - rewrite K'. clear - N S B. induction cs as [|c cs IH]; [constructor|]. cbn [flat_map map] in *. inversion N; subst.
    assert (ND : NoDup (map (d (fst c)) (seq 0 (n_constrain rot)))).
    { apply NoDup_nth_error. intros i j Hi Ej. rewrite map_length, seq_length in Hi.
      rewrite nth_error_map in Ej. rewrite (nth_error_nth' _ 0%nat) in Ej by (rewrite seq_length; exact Hi).
      rewrite nth_error_map in Ej. destruct (nth_error (seq 0 (n_constrain rot)) j) eqn:Q; [|discriminate].
      cbn in Ej. injection Ej as Ej. assert (J : (j < n_constrain rot)%nat) by (rewrite <- (seq_length (n_constrain rot) 0); apply nth_error_Some; congruence).
      rewrite (nth_error_nth' _ 0%nat) in Q by (rewrite seq_length; exact J). injection Q as Q. rewrite seq_nth in Q, Ej by assumption.
      subst. apply (proj2 S) in Ej; lia. }
    specialize (IH H2).
    assert (DJ : forall k, In k (map (d (fst c)) (seq 0 (n_constrain rot))) ->
        ~ In k (flat_map (fun c => map (d (fst c)) (seq 0 (n_constrain rot))) cs)).
    { intros k A1 A2. apply in_map_iff in A1. destruct A1 as [i [Ei Ii]]. apply in_seq in Ii.
      apply in_flat_map in A2. destruct A2 as [c' [C' A2]]. apply in_map_iff in A2. destruct A2 as [j [Ej Ij]]. apply in_seq in Ij.
      rewrite <- Ei in Ej. apply (proj2 S) in Ej; try lia. destruct Ej as [Ej _]. apply H1. rewrite <- Ej. apply in_map. exact C'. }
    revert ND DJ. generalize (map (d (fst c)) (seq 0 (n_constrain rot))). intros l0. induction l0 as [|x l0 IHl]; intros ND DJ; [exact IH|].
    cbn. inversion ND; subst. constructor.
    + rewrite in_app_iff. intros [A|A]; [contradiction|]. apply (DJ x (or_introl eq_refl) A).
    + apply IHl; [assumption|]. intros k A. apply DJ. right. exact A.
  - intros k. rewrite K', in_flat_map. split.
    + intros [c [C A]]. apply in_map_iff in A. destruct A as [i [Ei Ii]]. apply in_seq in Ii. exists c, i.
      split; [exact C|]. split; [destruct rot; cbn in *; lia|auto].
    + intros [c [i [C [I E']]]]. exists c. split; [exact C|]. subst. apply in_map. apply in_seq. destruct rot; cbn; lia.
  - intros x. rewrite X. split.
    + intros [e [r [I R]]]. unfold reg in I. apply in_map_iff in I. destruct I as [c [<- I]]. exists c, r. auto.
    + intros [c [r [I R]]]. exists (fst c, (snd c, rot)), r. split; [unfold reg; apply (in_map (fun c => (fst c, (snd c, rot)))); exact I|exact R].
Qed.

(** The dof map: *)
Lemma constrained_in : forall k m, constrained k m = true <-> In k (tied m).
Proof.
  intros k m. unfold constrained. rewrite existsb_exists. split.
  - intros [e [I E]]. apply Nat.eqb_eq in E. subst. apply (in_map (fun c : constraint => fst (fst c)) m). exact I.
  - intros H. apply in_map_iff in H. destruct H as [e [E I]]. exists e. split; [exact I|]. apply Nat.eqb_eq. exact E.
Qed.
Lemma add_rows_ok : forall cs m, NoDup (tied (m ++ cs)) -> add_rows m cs = (m ++ cs, None).
Proof.
  induction cs as [|c cs IH]; intros m N; cbn [add_rows]; [rewrite app_nil_r; reflexivity|].
  destruct (constrained (fst (fst c)) m) eqn:E.
  - apply constrained_in in E. rewrite tied_app in N. cbn in N. apply NoDup_remove_2 in N. exfalso. apply N. apply in_or_app. left. exact E.
  - rewrite IH; rewrite <- app_assoc; [reflexivity|exact N].
Qed.
(** All rows are added, the others are left alone, when no tied dof has a row already. *)
Theorem C177_dof_map : forall dbg pos dofs d rot cs m, six dofs d -> NoDup (map fst cs) ->
  (forall c, In c cs -> NoDup (snd c)) -> NoDup (tied m) ->
  (forall c i, In c cs -> (i < 6)%nat -> ~ In (d (fst c) i) (tied m)) ->
  exists l, get_constraint_rows pos dofs dbg (mkK false (reg rot cs)) = Ok (l, mkK true (reg rot cs)) /\
    add_to_dof_map pos dofs dbg (mkK false (reg rot cs)) m = (mkK true (reg rot cs), m ++ l, None).
Proof.
  intros dbg pos dofs d rot cs m S N M Nm D. destruct (C177_rows dbg pos dofs d rot cs S N M) as [l [E [NL [K _]]]].
  exists l. split; [exact E|]. unfold add_to_dof_map. rewrite E. rewrite add_rows_ok; [reflexivity|].
  rewrite tied_app. revert Nm D. generalize (tied m). intros l0.
  induction l0 as [|k l0 IH]; intros Nm D; [exact NL|]. cbn. inversion Nm; subst. constructor.
  - rewrite in_app_iff. intros [A|A]; [contradiction|]. apply K in A. destruct A as [c [i [C [I A]]]].
    apply (D c i C); [destruct rot; lia|left; auto].
  - apply IH; [assumption|]. intros c i C I A. apply (D c i C I). right. exact A.
Qed.
(** A slave dof that has a row already, makes libMesh refuse; adding the rows a second time changes nothing else. *)
Lemma add_rows_fault : forall (cs m : list constraint), (exists c, In c cs /\ In (fst (fst c)) (tied m)) -> snd (add_rows m cs) = Some LibError.
Proof.
  induction cs as [|c cs IH]; intros m [x [I E]]; [destruct I|]. cbn [add_rows].
  destruct (constrained (fst (fst c)) m) eqn:C; [reflexivity|]. destruct I as [I|I]; [subst; apply constrained_in in E; congruence|].
  apply IH. exists x. split; [exact I|]. rewrite tied_app, in_app_iff. left. exact E.
Qed.
Theorem C177_occupied : forall dbg pos dofs d (rot : bool) cs (m : list constraint), six dofs d -> NoDup (map fst cs) ->
  (forall c, In c cs -> NoDup (snd c)) ->
  (exists (c : nat * list nat) i, In c cs /\ (i < (if rot then 6 else 3))%nat /\ In (d (fst c) i) (tied m)) ->
  snd (add_to_dof_map pos dofs dbg (mkK false (reg rot cs)) m) = Some LibError.
Proof.
  intros dbg pos dofs d rot cs m S N M [c [i [C [I X]]]]. destruct (C177_rows dbg pos dofs d rot cs S N M) as [l [E [_ [K _]]]].
  unfold add_to_dof_map. rewrite E. pose proof (add_rows_fault l m) as F. destruct (add_rows m l) as [m' e] eqn:Q. cbn in *. apply F.
  assert (T : In (d (fst c) i) (tied l)) by (apply K; exists c, i; auto).
  unfold tied in T. apply in_map_iff in T. destruct T as [x [Ex Ix]]. exists x. rewrite Ex. auto.
Qed.
Theorem C177_again : forall dbg pos dofs d rot cs (m l : list constraint), six dofs d -> NoDup (map fst cs) -> cs <> [] ->
  (forall c, In c cs -> NoDup (snd c)) ->
  get_constraint_rows pos dofs dbg (mkK false (reg rot cs)) = Ok (l, mkK true (reg rot cs)) ->
  add_to_dof_map pos dofs dbg (mkK true (reg rot cs)) (m ++ l) = (mkK true (reg rot cs), m ++ l, Some LibError).
Proof.
  intros dbg pos dofs d rot cs m l S N NE M E.
  assert (E' : get_constraint_rows pos dofs dbg (mkK true (reg rot cs)) = Ok (l, mkK true (reg rot cs))) by exact E.
  unfold add_to_dof_map. rewrite E'. destruct l as [|c l].
  - exfalso. destruct (C177_rows dbg pos dofs d rot cs S N M) as [l [El [_ [K _]]]]. rewrite E in El. injection El as <-.
    destruct cs as [|c cs]; [congruence|]. apply (proj2 (K (d (fst c) 0%nat))). exists c, 0%nat. split; [left; reflexivity|]. split; [destruct rot; lia|reflexivity].
  - cbn [add_rows]. replace (constrained (fst (fst c)) (m ++ c :: l)) with true; [reflexivity|]. symmetry. apply constrained_in.
    rewrite tied_app, in_app_iff. right. left. reflexivity.
Qed.
(** ... and the rows before it stay: the slave is left with some of its rows. *)
Theorem C177_half_added_refuted : forall pos dofs d s ms dbg, six dofs d -> NoDup ms ->
  let old := [(d s 1%nat, [], 0)] in
  exists r, snd (add_to_dof_map pos dofs dbg (mkK false (reg true [(s, ms)])) old) = Some LibError /\
    snd (fst (add_to_dof_map pos dofs dbg (mkK false (reg true [(s, ms)])) old)) = old ++ [(d s 0%nat, r, 0)].
Proof.
  intros pos dofs d s ms dbg S N old.
  destruct (C177_rows dbg pos dofs d true [(s, ms)] S ltac:(repeat constructor; intros []) ltac:(intros c [<-|[]]; exact N)) as [l [E _]].
  destruct (C176_value pos dofs d s ms true S N) as [l' [E' [K [Z _]]]].
  assert (l = l').
  { unfold get_constraint_rows, reg in E. cbn [map k_map all_rows fst snd] in E. rewrite E' in E. cbn [bind] in E. rewrite app_nil_r in E.
    destruct (dbg && _); [discriminate|]. injection E as <-. reflexivity. }
  subst l'. unfold add_to_dof_map. rewrite E.
  destruct l as [|[[k0 r0] b0] [|[[k1 r1] b1] l]]; try discriminate K. cbn in K. injection K as -> -> K.
  assert (b0 = 0) by exact (Z _ (or_introl eq_refl)). subst b0. exists r0. unfold old. cbn [add_rows fst snd constrained existsb].
  assert (D : d s 1%nat <> d s 0%nat) by (intros D; apply (proj2 S) in D; lia).
  apply Nat.eqb_neq in D. rewrite D. cbn [orb app]. unfold constrained. cbn [existsb fst snd]. rewrite Nat.eqb_refl. cbn. split; reflexivity.
Qed.
Example C177_witness : exists l, get_constraint_rows ex_pos ex_dofs true (mkK false (reg true [(2%nat, [0%nat]); (3%nat, [0%nat; 1%nat])])) =
  Ok (l, mkK true (reg true [(2%nat, [0%nat]); (3%nat, [0%nat; 1%nat])])) /\ length l = 12%nat.
Proof.
  destruct (C177_rows true ex_pos ex_dofs ex_d true [(2%nat, [0%nat]); (3%nat, [0%nat; 1%nat])] C176_six) as [l [E _]].
  - cbn. repeat constructor; cbn; intuition lia.
  - intros c [<-|[<-|[]]]; cbn; repeat constructor; cbn; intuition lia.
  - exists l. split; [exact E|]. unfold get_constraint_rows in E.
    destruct (all_rows ex_pos ex_dofs _); [|discriminate]. cbn [bind] in E.
    destruct (Nat.eqb_spec (length a) (fold_left (fun (n : nat) (e : nat * (list nat * bool)) => (n + n_constrain (snd (snd e)))%nat) (k_map (mkK false (reg true [(2%nat, [0%nat]); (3%nat, [0%nat; 1%nat])]))) 0%nat)) as [Q|]; [|discriminate].
    cbn [andb negb] in E. injection E as <-. exact Q.
Qed.
Print Assumptions C177_rows.
Print Assumptions C177_twice_refuted.
Print Assumptions C177_half_added_refuted.
